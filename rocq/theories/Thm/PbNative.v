(** C45: message types as elements of ordinary containers. *)

From Coq Require Import List NArith ZArith Lia Bool Arith.
From Coq Require Import ZifyBool ZifyNat ZifyN.
From Verif Require Import Base.Bytes Model.Types Model.Machine Model.Varint Model.Out Model.In
  Model.Loops Model.Protocol Model.Pb Model.PbNative
  Spec.Leb128 Spec.Wire Spec.PbWire Spec.PbMerge
  Proofs.VarintP Proofs.OutP Proofs.InBase Proofs.InSafe Proofs.InLocal Proofs.InPrior Proofs.InRound Proofs.ProtoP
  Proofs.PbOut Proofs.PbParse Proofs.PbIn Proofs.PbRead Proofs.PbRound
  Thm.Demo Thm.Output Thm.Input Thm.Items Thm.Protocol Thm.Pb.
Import ListNotations.
Local Open Scope N_scope.

Ltac Zify.zify_post_hook ::= Z.div_mod_to_equations.

(** ** The raw form *)

Lemma raw_member_wt P x t : flat_pty t = true -> pwt P x t = wt no_types x (raw_ty t).
Proof. destruct t; try discriminate; intros _; destruct x; reflexivity. Qed.

Lemma raw_wt P k x : flat_msg P k = true -> pwt P x (PMsg k) = wt no_types x (raw_msg P k).
Proof.
  intro H. apply andb_true_iff in H as [_ H].
  destruct x as [|l| | | | | |]; try reflexivity. cbn [pwt wt raw_msg].
  revert l. induction (m_fields (P k)) as [|fd fs IH]; intros [|x l]; try reflexivity.
  cbn [forallb map forall2b] in *. apply andb_true_iff in H as [H1 H2].
  now rewrite (raw_member_wt P x _ H1), IH.
Qed.

Lemma raw_bs_member t : flat_pty t = true -> bs (raw_ty t) = true /\ is_empty (raw_ty t) = false.
Proof. destruct t; try discriminate; now split. Qed.

Lemma raw_nonempty P k : flat_msg P k = true -> is_empty (raw_msg P k) = false.
Proof.
  intro H. apply andb_true_iff in H as [H _]. unfold raw_msg.
  destruct (m_fields (P k)); [discriminate|reflexivity].
Qed.

Lemma raw_bs P k : flat_msg P k = true -> bs (raw_msg P k) = true.
Proof.
  intro H. pose proof (raw_nonempty P k H) as E. unfold raw_msg in E |- *.
  cbn [bs s_triv s_expl s_size]. rewrite E, Nat.eqb_refl.
  apply andb_true_iff in H as [_ H]. rewrite !andb_true_iff, !negb_true_iff. repeat split; auto.
  - clear E. induction (m_fields (P k)) as [|fd fs IH]; [reflexivity|].
    cbn [map forallb] in *. apply andb_true_iff in H as [H1 H2].
    destruct (raw_bs_member _ H1) as [-> _]. now apply IH.
  - clear E. induction (m_fields (P k)) as [|fd fs IH]; [reflexivity|].
    cbn [map forallb existsb] in *. apply andb_true_iff in H as [H1 H2].
    destruct (raw_bs_member _ H1) as [_ ->]. now apply IH.
Qed.

Lemma raw_wf P k : wf_penv P -> flat_msg P k = true -> wf no_types (raw_msg P k) = true.
Proof.
  intros HP H. assert (Hd : wt no_types (VSeq (m_dflt (P k))) (raw_msg P k) = true).
  { rewrite <- raw_wt by exact H. specialize (HP k). unfold wf_pmsg in HP.
    rewrite !andb_true_iff in HP. apply HP. }
  unfold raw_msg in *. cbn [wf s_dflt s_expl]. rewrite Hd.
  destruct (wf_pmsg_facts P k (HP k)) as (H1 & _).
  apply andb_true_iff in H as [H0 H]. 
  assert (H0' : (0 <? length (map (fun fd => raw_ty (snd fd)) (m_fields (P k))))%nat = true)
    by (rewrite map_length; exact H0).
  rewrite H0'. clear H0'. cbn [orb andb].
  rewrite andb_true_r. clear Hd H0. induction (m_fields (P k)) as [|fd fs IH]; [reflexivity|].
  cbn [map forallb] in *. apply andb_true_iff in H as [H2 H3]. apply andb_true_iff in H1 as [H1 H4].
  rewrite IH by auto. rewrite andb_true_r.
  destruct (snd fd); try discriminate; cbn [raw_ty wf wfp] in *; [lia|reflexivity|reflexivity].
Qed.

Lemma raw_tall P k f : flat_msg P k = true ->
  (forall w b, f (TScalar w b) = true) -> f TBool = true -> f (raw_msg P k) = true ->
  tall f (raw_msg P k) = true.
Proof.
  intros H Hs Hb Hf. unfold raw_msg in *. cbn [tall]. rewrite Hf. cbn [andb].
  apply andb_true_iff in H as [_ H]. clear Hf. induction (m_fields (P k)) as [|fd fs IH]; [reflexivity|].
  cbn [map forallb] in *. apply andb_true_iff in H as [H2 H3]. rewrite IH by auto.
  destruct (snd fd); try discriminate; cbn [raw_ty tall]; now rewrite ?Hs, ?Hb.
Qed.

(** ** The two forms differ *)

Lemma flat_message_length P mp : forall fs l idx,
  forallb (fun fd => wfp (snd fd)) fs = true -> forallb (fun fd => flat_pty (snd fd)) fs = true ->
  forall2b (fun x fd => pwt P x (snd fd)) l fs = true ->
  (sum (map bsize (map (fun fd => raw_ty (snd fd)) fs)) + length fs
   <= length (records_bytes (members_records
        (fun idx fd x => member_records P (spec_number mp (fst fd) idx) x (snd fd)) idx l fs)))%nat.
Proof.
  induction fs as [|fd fs IH]; intros [|x l] idx Hwf Hfl Hw; try discriminate; [cbn; lia|].
  cbn [forallb forall2b map members_records length] in *.
  apply andb_true_iff in Hwf as [W1 W2]. apply andb_true_iff in Hfl as [F1 F2].
  apply andb_true_iff in Hw as [V1 V2]. specialize (IH l (S idx) W2 F2 V2).
  unfold records_bytes in *. rewrite flat_map_app, app_length. cbn [sum fold_right]. fold (sum).
  assert (E : (bsize (raw_ty (snd fd)) + 1 <= length (flat_map record_bytes
    (member_records P (spec_number mp (fst fd) idx) x (snd fd))))%nat).
  { clear IH V2 W2 F2. destruct (snd fd) as [w| | | | | | | | | | |]; try discriminate;
      destruct x as [n| | | | | | |]; try discriminate; cbn [member_records raw_ty bsize flat_map];
      rewrite app_nil_r; unfold record_bytes; rewrite app_length; cbn [fst snd];
      pose proof (leb128_nonempty (8 * spec_number mp (fst fd) idx
        + wire_of (if (w =? 4)%nat then W32 n else W64 n))) as N1 || 
      pose proof (leb128_nonempty (8 * spec_number mp (fst fd) idx + wire_of (WVar n))) as N1.
    - cbn [wfp] in W1. apply orb_true_iff in W1 as [E|E]; apply Nat.eqb_eq in E; subst w;
        cbn [Nat.eqb payload_bytes wire_of] in *; rewrite le_bytes_length; lia.
    - pose proof (leb128_nonempty n). cbn [payload_bytes]. lia.
    - pose proof (leb128_nonempty (8 * spec_number mp (fst fd) idx + wire_of (WByte n))).
      cbn [payload_bytes]. rewrite le_bytes_length. lia. }
  cbn [map fold_right] in *. unfold sum in *. lia.
Qed.

(** For every flat message type and every value, the memory of the object (which is what is
    written inside a contiguous container) is shorter than the message (which is what is
    written for the object on its own), so the bytes differ. *)
Theorem pb_raw_differs P c k l :
  wf_penv P -> flat_msg P k = true -> pwt P (VSeq l) (PMsg k) = true ->
  (length (objrep c (VSeq l) (raw_msg P k)) + length (m_fields (P k)) <= length (message_bytes P k l))%nat /\
  (0 < length (m_fields (P k)))%nat.
Proof.
  intros HP Hf Hw.
  assert (E : length (objrep c (VSeq l) (raw_msg P k)) = bsize (raw_msg P k)).
  { apply (objrep_length no_types); [now rewrite <- raw_wt|now apply raw_bs]. }
  rewrite E. destruct (wf_pmsg_facts P k (HP k)) as (H1 & _).
  apply andb_true_iff in Hf as [Hn Hf]. split; [|lia].
  exact (flat_message_length P (m_map (P k)) (m_fields (P k)) l 0 H1 Hf Hw).
Qed.

(** ** In a contiguous container *)

Lemma no_types_tall f : tall_env f no_types.
Proof. intro k. reflexivity. Qed.

(** Bytes: the count and then the objects' memory - no tags, no lengths. *)
Theorem pb_vec_raw P c s k l st st' :
  wf_penv P -> flat_msg P k = true -> as_bytes c (raw_msg P k) = true ->
  wf_out c -> szok c = true -> wfsz s = true -> forallb (fun x => pwt P x (PMsg k)) l = true ->
  let e := wire_size (fmt_of c) s (N.of_nat (length l)) ++ flat_map (fun x => objrep c x (raw_msg P k)) l in
  N.of_nat (length e) < 2 ^ 63 -> ost_ok st ->
  ser_pb_vec P c s true k l st = (ROk, st') ->
  window (obuf st') (opos st) (opos st' - opos st) = e /\ opos st' = (opos st + length e)%nat.
Proof.
  intros HP Hf Ha Hwo Hsz Hs Hl e He Hok E.
  assert (Hwt : wt no_types (VSeq l) (TVec s true (raw_msg P k)) = true).
  { cbn [wt]. rewrite forallb_forall in *. intros x Hx. rewrite <- raw_wt by exact Hf. now apply Hl. }
  assert (Hel : elem_ok (raw_msg P k) = true) by reflexivity.
  assert (Hpl : plain (TVec s true (raw_msg P k)) = true).
  { unfold plain. cbn [tall elem_ok]. rewrite raw_nonempty by exact Hf. cbn [negb andb].
    apply raw_tall; auto. }
  assert (Een : encode no_types (fmt_of c) (VSeq l) (TVec s true (raw_msg P k)) = e).
  { unfold encode. cbn [enc].
    rewrite (enc_all_bytes no_types (fmt_of c) c (raw_msg P k) l); [reflexivity|].
    rewrite Forall_forall. intros x Hx. apply objrep_enc; auto.
    - cbn [wt] in Hwt. rewrite forallb_forall in Hwt. now apply Hwt.
    - now apply raw_wf.
    - unfold plain. apply raw_tall; auto.
    - now apply raw_nonempty. }
  assert (Es : ser no_types c (VSeq l) (TVec s true (raw_msg P k)) st = (ROk, st')).
  { rewrite <- E. unfold ser_pb_vec. cbn [ser]. now rewrite Ha. }
  assert (W : writing no_types c (VSeq l) (TVec s true (raw_msg P k))).
  { constructor; auto using wf_no_types, no_types_tall.
    - cbn [wf]. rewrite Hs. now apply raw_wf.
    - now rewrite Een. }
  assert (B : bits_ok no_types (TVec s true (raw_msg P k)) st).
  { right. split; [|apply no_types_tall]. cbn [tall not_bitset andb]. now apply raw_tall. }
  destruct (out_wire_format _ _ _ _ _ _ W B Hok Es) as (_ & H2 & H3). rewrite Een in *.
  split; [|exact H2]. replace (opos st' - opos st)%nat with (length e) by lia. exact H3.
Qed.

(** The objects come back, whatever the target held. *)
Theorem pb_vec_raw_round_trip P c s k l st st' data pos fuel prior :
  wf_penv P -> flat_msg P k = true -> as_bytes c (raw_msg P k) = true ->
  wf_out c -> szok c = true -> wfsz s = true -> forallb (fun x => pwt P x (PMsg k)) l = true ->
  N.of_nat (length (wire_size (fmt_of c) s (N.of_nat (length l))
                    ++ flat_map (fun x => objrep c x (raw_msg P k)) l)) < 2 ^ 63 ->
  ost_ok st -> ser_pb_vec P c s true k l st = (ROk, st') ->
  sz_of c s <> SzNone -> readable no_types c (VSeq l) (TVec s true (raw_msg P k)) = true ->
  forallb (fun x => pwt P x (PMsg k)) prior = true -> small data ->
  has_at data pos (window (obuf st') (opos st) (opos st' - opos st)) ->
  des_pb_vec P c data fuel s true k (VSeq prior) pos
  = (ROk, VSeq l, (pos + (opos st' - opos st))%nat).
Proof.
  intros HP Hf Ha Hwo Hsz Hs Hl He Hok E Hne Hrd Hpr Hsm Hat.
  destruct (pb_vec_raw P c s k l st st' HP Hf Ha Hwo Hsz Hs Hl He Hok E) as [Hwin Hpos].
  rewrite Hwin in Hat. set (e := _ ++ _) in *.
  assert (Hwt : forall q, forallb (fun x => pwt P x (PMsg k)) q = true ->
    wt no_types (VSeq q) (TVec s true (raw_msg P k)) = true).
  { intros q Hq. cbn [wt]. rewrite forallb_forall in *. intros x Hx.
    rewrite <- raw_wt by exact Hf. now apply Hq. }
  assert (Een : encode no_types (fmt_of c) (VSeq l) (TVec s true (raw_msg P k)) = e
                /\ writable no_types (fmt_of c) (VSeq l) (TVec s true (raw_msg P k)) = true).
  { unfold encode, writable. cbn [enc].
    rewrite (enc_all_bytes no_types (fmt_of c) c (raw_msg P k) l); [split; reflexivity|].
    rewrite Forall_forall. intros x Hx. apply objrep_enc; auto.
    - specialize (Hwt l Hl). cbn [wt] in Hwt. rewrite forallb_forall in Hwt. now apply Hwt.
    - now apply raw_wf.
    - unfold plain. apply raw_tall; auto.
    - now apply raw_nonempty. }
  destruct Een as [Een Hwr].
  assert (D : des_pb_vec P c data (height (VSeq l)) s true k (VSeq prior) pos
              = des no_types c data (height (VSeq l)) (TVec s true (raw_msg P k)) (VSeq prior) pos).
  { unfold des_pb_vec, des. cbn [des_ty]. rewrite Ha. reflexivity. }
  assert (D' : des_pb_vec P c data fuel s true k (VSeq prior) pos
              = des_pb_vec P c data (height (VSeq l)) s true k (VSeq prior) pos).
  { unfold des_pb_vec. rewrite Ha. reflexivity. }
  rewrite D', D.
  replace (opos st' - opos st)%nat with (length (encode no_types (fmt_of c) (VSeq l) (TVec s true (raw_msg P k))))
    by (rewrite Een; lia).
  rewrite <- Een in Hat.
  apply des_round; auto using wf_no_types, no_types_tall.
  - cbn [wf]. rewrite Hs. now apply raw_wf.
  - unfold plain. cbn [tall elem_ok]. rewrite raw_nonempty by exact Hf. cbn [negb andb].
    apply raw_tall; auto.
  - cbn [tall]. apply andb_true_iff. split.
    + unfold rt_ok, own_extent, delimited. now destruct (sz_of c s).
    + apply raw_tall; auto.
Qed.

(** ** Element by element *)

(** Where the memory cannot be copied (other containers, byte-swapping archives) each element
    is a message with its length. *)
Theorem pb_vec_protocol P c s contig k l :
  as_bytes c (raw_msg P k) && contig = false -> szok c = true -> wfsz s = true ->
  Forall (fun x => exists m, x = VSeq m /\ pb_writing P c (dsize c) k m) l ->
  let item x := proto_prefix c (dsize c) (N.of_nat (length (message_bytes P k (as_seq x))))
                ++ message_bytes P k (as_seq x) in
  pemits c (ser_pb_vec P c s contig k l)
    (wire_size (fmt_of c) s (N.of_nat (length l)) ++ flat_map item l).
Proof.
  intros Ha Hsz Hs Hl item. unfold ser_pb_vec. rewrite Ha. apply pemits_seq.
  - apply emits_pemits. now apply emits_size.
  - apply pemits_each. rewrite Forall_forall in *. intros x Hx.
    destruct (Hl x Hx) as (m & -> & [W1 W2 W3 W4 W5 W6 W7 W8 W9 W10]). cbn [as_seq].
    apply pemits_pb_item; auto. now apply pb_order_little.
Qed.

Lemma des_all_reads data (f : val -> nat -> dres) (e : val -> list byte) (l : list val) : forall priors pos,
  length priors = length l ->
  (forall x p q, In x l -> In p priors -> has_at data q (e x) -> f p q = (ROk, x, (q + length (e x))%nat)) ->
  has_at data pos (flat_map e l) ->
  des_all f priors pos = (ROk, l, (pos + length (flat_map e l))%nat).
Proof.
  induction l as [|x l IH]; intros [|p priors] pos HL Hf Hat; try discriminate; cbn [des_all flat_map].
  - f_equal. cbn. lia.
  - cbn [flat_map] in Hat. apply has_at_app in Hat as [H1 H2].
    rewrite (Hf x p pos) by (auto; now left).
    rewrite (IH priors (pos + length (e x))%nat); auto.
    + f_equal. rewrite app_length. lia.
    + intros y q z Hy Hq. apply Hf; now right.
Qed.

Lemma vresize_in d n l x : In x (vresize d n l) -> In x l \/ x = d.
Proof.
  unfold vresize. intro H. apply in_app_or in H as [H|H].
  - left. rewrite <- (firstn_skipn n l). apply in_or_app. now left.
  - right. now apply repeat_spec in H.
Qed.

Theorem pb_vec_protocol_round_trip P c s contig k l data pos fuel prior :
  wf_penv P ->
  as_bytes c (raw_msg P k) && contig = false -> szok c = true -> wfsz s = true ->
  sz_of c s <> SzNone -> dsize c <> SzNone ->
  Forall (fun x => exists m, x = VSeq m /\ pwt P (VSeq m) (PMsg k) = true /\
    preadable P (pb_room c) (VSeq m) (PMsg k) = true /\
    pb_prefix_ok c (dsize c) (N.of_nat (length (message_bytes P k m))) /\
    (length (message_bytes P k m) < fuel)%nat) l ->
  count_ok c s (length l) = true -> over_limit c (raw_msg P k) (N.of_nat (length l)) = false ->
  can_alloc c (N.of_nat (length l) * csizeof c (raw_msg P k)) = true ->
  forallb (fun x => pwt P x (PMsg k)) prior = true -> N.of_nat (length data) < 2 ^ 63 ->
  let item x := proto_prefix c (dsize c) (N.of_nat (length (message_bytes P k (as_seq x))))
                ++ message_bytes P k (as_seq x) in
  let e := wire_size (fmt_of c) s (N.of_nat (length l)) ++ flat_map item l in
  has_at data pos e ->
  des_pb_vec P c data fuel s contig k (VSeq prior) pos = (ROk, VSeq l, (pos + length e)%nat).
Proof.
  intros HP Ha Hsz Hs Hne Hdn Hl Hc Hlim Hal Hpr Hd item e Hat.
  assert (Hsm : small data).
  { unfold small. change (2 ^ 63) with 9223372036854775808 in Hd.
    change (2 ^ 64) with 18446744073709551616. lia. }
  apply has_at_app in Hat as [H1 H2].
  pose proof (des_size_has c data Hsz Hsm s (length l) pos Hs Hne Hc H1) as D.
  assert (Hdf : pwt P (VSeq (m_dflt (P k))) (PMsg k) = true).
  { specialize (HP k). unfold wf_pmsg in HP. rewrite !andb_true_iff in HP. apply HP. }
  assert (M : forall priors q, length priors = length l ->
    forallb (fun x => pwt P x (PMsg k)) priors = true -> has_at data q (flat_map item l) ->
    des_all (des_pb_item P c data fuel (dsize c) k) priors q
    = (ROk, l, (q + length (flat_map item l))%nat)).
  { intros priors q HL Hp Hq. apply (des_all_reads data); auto.
    intros x p z Hx Hpx Hz. rewrite Forall_forall in Hl.
    destruct (Hl x Hx) as (m & -> & Hw & Hr & Hpp & Hfu). unfold item in Hz |- *. cbn [as_seq] in *.
    rewrite forallb_forall in Hp. specialize (Hp p Hpx). destruct p as [|pl| | | | | |]; try discriminate.
    apply (pb_reads_sized P c (dsize c) k pl (message_records P k m) m); auto.
    apply message_restored; auto. }
  unfold des_pb_vec. rewrite Ha. unfold e. rewrite app_length, Nat.add_assoc.
  destruct (sz_of c s) eqn:Es; [congruence|..]; rewrite D; unfold vec_resize;
    rewrite Hlim, Hal, orb_true_r; cbn [as_seq]; rewrite Nat2N.id;
    unfold des_elems; (rewrite M; [reflexivity|apply vresize_length| |exact H2]);
    (apply forallb_forall; intros x Hx; apply vresize_in in Hx as [Hx| ->];
     [rewrite forallb_forall in Hpr; now apply Hpr|exact Hdf]).
Qed.

(** struct { fixed32 a, b; }: alone, in a vector, in a list. *)
Definition pb_flat : penv := fun _ =>
  mkPmsg [(None, PFix 4); (None, PFix 4)] [] [VN 0; VN 0].
Definition pb_flat_val : list val := [VN 1; VN 0x0a0b0c0d].

Example pb_native_nontrivial :
  wf_penv pb_flat /\ flat_msg pb_flat 0 = true /\
  as_bytes vec_cfg (raw_msg pb_flat 0) = true /\ as_bytes (big_cfg true) (raw_msg pb_flat 0) = false /\
  (exists st, ser_pb_item pb_flat vec_cfg (SzFix 4) 0 pb_flat_val (mkO [] 0) = (ROk, st) /\
     firstn (opos st) (obuf st)
     = [x0a; x00; x00; x00; x0d; x01; x00; x00; x00; x15; x0d; x0c; x0b; x0a]) /\
  (exists st, ser_pb_vec pb_flat vec_cfg None true 0 [VSeq pb_flat_val] (mkO [] 0) = (ROk, st) /\
     firstn (opos st) (obuf st)
     = [x01; x00; x00; x00; x01; x00; x00; x00; x0d; x0c; x0b; x0a] /\
     des_pb_vec pb_flat vec_cfg (firstn (opos st) (obuf st)) 10 None true 0 (VSeq []) 0
     = (ROk, VSeq [VSeq pb_flat_val], 12%nat)) /\
  (exists st, ser_pb_vec pb_flat vec_cfg None false 0 [VSeq pb_flat_val] (mkO [] 0) = (ROk, st) /\
     opos st = 18%nat /\
     des_pb_vec pb_flat vec_cfg (firstn (opos st) (obuf st)) 20 None false 0 (VSeq []) 0
     = (ROk, VSeq [VSeq pb_flat_val], 18%nat)).
Proof.
  split; [intro k; vm_compute; reflexivity|]. split; [vm_compute; reflexivity|].
  split; [vm_compute; reflexivity|]. split; [vm_compute; reflexivity|].
  split; [eexists; split; vm_compute; reflexivity|].
  split; eexists; (split; [vm_compute; reflexivity|]); (split; [vm_compute; reflexivity|]);
    vm_compute; reflexivity.
Qed.

(** In particular data written from a vector cannot be read into a list. *)
Theorem pb_vector_list_refuted :
  exists P l st r v p, wf_penv P /\ flat_msg P 0 = true /\
    ser_pb_vec P vec_cfg None true 0 [VSeq l] (mkO [] 0) = (ROk, st) /\
    des_pb_vec P vec_cfg (firstn (opos st) (obuf st)) 20 None false 0 (VSeq []) 0 = (r, v, p) /\
    v <> VSeq [VSeq l].
Proof.
  exists pb_flat, pb_flat_val. do 4 eexists. split; [intro k; vm_compute; reflexivity|].
  split; [vm_compute; reflexivity|]. split; [vm_compute; reflexivity|].
  split; [vm_compute; reflexivity|]. vm_compute. discriminate.
Qed.
