(** C32-C35: reading protocol buffers from arbitrary input. *)

From Coq Require Import List NArith ZArith Lia Bool Arith.
From Coq Require Import ZifyBool ZifyNat ZifyN.
From Verif Require Import Base.Bytes Model.Types Model.Machine Model.Varint Model.Out Model.In
  Model.Loops Model.Protocol Model.Pb
  Spec.Leb128 Spec.Wire Spec.PbWire Spec.PbMerge
  Proofs.VarintP Proofs.OutP Proofs.InBase Proofs.InSafe Proofs.InRound Proofs.InAlloc Proofs.ProtoP
  Proofs.PbOut Proofs.PbParse Proofs.PbIn Proofs.PbRead Proofs.PbRound Proofs.PbAlloc
  Thm.Demo Thm.Output Thm.Protocol Thm.Pb.
Import ListNotations.
Local Open Scope N_scope.

Ltac Zify.zify_post_hook ::= Z.div_mod_to_equations.

(** ** C32: memory safety *)

(** Schemas without bool members: no undefined behaviour, the position stays inside the data
    and never moves back, the reader terminates, and the target is a well-formed object
    whatever the bytes.  ([RStack] is the outcome of the model's recursion bound.) *)
Theorem pb_memory_safe P c data fuel s k prior pos :
  wf_penv P -> pcmp_env P ->
  (forall k, forallb (fun fd => no_bool (snd fd)) (m_fields (P k)) = true) ->
  wfsz (Some s) = true -> small data -> (pos <= length data)%nat ->
  (length data - pos < fuel)%nat -> pwt P prior (PMsg k) = true ->
  let '(r, v, p) := des_pb_item P c data fuel s k prior pos in
  r <> RUB /\ r <> RStack /\ (pos <= p <= length data)%nat /\ pwt P v (PMsg k) = true.
Proof.
  intros HP Hc Hb Hs Hsm Hp Hf Hw.
  pose proof (des_pb_item_safe P c false data fuel s k prior pos HP Hc Hb Hs Hsm Hp Hf Hw) as H.
  destruct (des_pb_item P c data fuel s k prior pos) as [[r v] p].
  destruct H as (H1 & H2 & H3 & H4). repeat split; try tauto; try lia.
  intro E. now apply H3 in E.
Qed.

(** With bool members everything but the value of a bool is safe. *)
Theorem pb_bounded P c data fuel s k prior pos :
  wf_penv P -> pcmp_env P ->
  wfsz (Some s) = true -> small data -> (pos <= length data)%nat ->
  (length data - pos < fuel)%nat -> pwt P prior (PMsg k) = true ->
  let '(r, v, p) := des_pb_item P c data fuel s k prior pos in
  r <> RStack /\ (pos <= p <= length data)%nat /\ pwt P v (PMsg k) = true.
Proof.
  intros HP Hc Hs Hsm Hp Hf Hw.
  pose proof (des_pb_item_safe P c true data fuel s k prior pos HP Hc
    (fun k => proj2 (forallb_forall _ _) (fun _ _ => eq_refl)) Hs Hsm Hp Hf Hw) as H.
  destruct (des_pb_item P c data fuel s k prior pos) as [[r v] p]. tauto.
Qed.

(** Nothing outside the announced message matters: the prefix and the announced bytes
    determine the outcome, and the position ends inside the message. *)
Theorem pb_reads_only_the_message P c s k prior n m data data' pos pos' fuel :
  s <> SzNone -> n = N.of_nat (length m) -> pb_prefix_ok c s n ->
  N.of_nat (length data) < 2 ^ 63 -> N.of_nat (length data') < 2 ^ 63 ->
  has_at data pos (proto_prefix c s n ++ m) -> has_at data' pos' (proto_prefix c s n ++ m) ->
  let '(r, v, p) := des_pb_item P c data fuel s k prior pos in
  let '(r', v', p') := des_pb_item P c data' fuel s k prior pos' in
  r = r' /\ v = v' /\ (p - pos = p' - pos')%nat.
Proof.
  intros Hne -> Hpp Hd Hd' Hat Hat'. unfold des_pb_item.
  apply has_at_app in Hat as [H1 H2]. apply has_at_app in Hat' as [H1' H2'].
  rewrite (des_protocol_prefix c s _ data pos _ _ Hne Hpp Hd H1).
  rewrite (des_protocol_prefix c s _ data' pos' _ _ Hne Hpp Hd' H1').
  unfold des_nested, rest_of.
  pose proof (has_at_le _ _ _ H2) as L. pose proof (has_at_le _ _ _ H2') as L'.
  rewrite !(proj2 (Nat.leb_le _ _)) by lia. rewrite !skipn_length.
  replace (N.to_nat (N.min _ (N.of_nat (length data - _)))) with (length m) by lia.
  replace (N.to_nat (N.min _ (N.of_nat (length data' - _)))) with (length m) by lia.
  rewrite (has_at_rest _ _ _ H2), (has_at_rest _ _ _ H2').
  destruct (des_fields P (pb_icfg c) fuel k m (as_seq prior)) as [[[] vs] q];
    repeat split; lia.
Qed.

(** A bool-free version of the demonstration schema, hostile input: the third byte is a
    length of 2^63 - 1. *)
Definition pb_hostile : penv := fun k =>
  match k with
  | O => mkPmsg [(None, PMsg 1); (None, PVars (CSeq true None) 8 false false);
                 (None, PMap map_kind (PFix 4) str)] [] [VSeq [VN 0]; VSeq []; VSeq []]
  | _ => mkPmsg [(None, PFix 8)] [] [VN 0]
  end.
Lemma lt_n_order Q k : a_cmp k = AOrd lt_n -> order_ok Q k.
Proof.
  intro E. unfold order_ok. rewrite E. split.
  - intros x _. destruct (akey k x); try reflexivity. apply N.ltb_irrefl.
  - intros x y z _ _ _. destruct (akey k x), (akey k y), (akey k z); cbn; try discriminate.
    rewrite !N.ltb_lt. lia.
Qed.

Lemma pb_hostile_cmp : pcmp_env pb_hostile.
Proof.
  intros [|k]; cbn [pb_hostile m_fields].
  - repeat (apply Forall_cons); try apply Forall_nil; cbn [snd pcmp_ok]; try exact I.
    split; [now apply lt_n_order|]. split; exact I.
  - repeat constructor.
Qed.

Example pb_memory_safe_nontrivial :
  wf_penv pb_hostile /\ pcmp_env pb_hostile /\
  (forall k, forallb (fun fd => no_bool (snd fd)) (m_fields (pb_hostile k)) = true) /\
  des_pb_item pb_hostile vec_cfg
    [x0a; xff; xff; xff; xff; xff; xff; xff; xff; x7f; x09; x01; x02] 14 SzNone 0
    (VSeq [VSeq [VN 0]; VSeq []; VSeq []]) 0
  = (RErr result_out_of_range, VSeq [VSeq [VN 0]; VSeq []; VSeq []], 11%nat).
Proof.
  split; [intros [|k]; vm_compute; reflexivity|]. split; [exact pb_hostile_cmp|].
  split; [intros [|k]; vm_compute; reflexivity|]. vm_compute. reflexivity.
Qed.

(** ** C33: missing and unknown fields *)

Lemma merges_absent P room nums ts vals rs vals' :
  merges P room nums ts vals rs vals' ->
  forall i num, nth_error nums i = Some num -> ~ In num (map fst rs) ->
  nth_error vals' i = nth_error vals i.
Proof.
  revert vals. induction rs as [|[n p] rs IH]; intros vals H i num Hi Hin; inversion H; subst; auto.
  cbn [map fst In] in Hin.
  match goal with Hx : merges _ _ _ _ (set_nth _ _ _) rs _ |- _ => rewrite (IH _ Hx i num Hi) by tauto end.
  apply nth_set_nth_ne. intros ->. match goal with Hx : nth_error nums i = Some n |- _ =>
    rewrite Hx in Hi end. injection Hi as ->. tauto.
Qed.

Lemma start_nth ts vals i t v :
  nth_error ts i = Some t -> nth_error vals i = Some v ->
  nth_error (start ts vals) i = Some (if repeated t then VSeq [] else v).
Proof.
  revert vals i. induction ts as [|t' ts IH]; intros [|x vals] [|i] Ht Hv; cbn in *; try discriminate.
  - now injection Ht as ->; injection Hv as ->.
  - now apply IH.
Qed.

(** Members without a record keep their value, containers are emptied. *)
Theorem pb_absent_members P c f k prior rs res :
  wf_penv P -> merges_message P (pb_room c) k prior rs res ->
  small (records_bytes rs) -> (length (records_bytes rs) < f)%nat ->
  des_fields P (pb_icfg c) f k (records_bytes rs) prior = (ROk, res, length (records_bytes rs)) /\
  forall i num t v, nth_error (msg_numbers P k) i = Some num -> ~ In num (map fst rs) ->
    nth_error (msg_types P k) i = Some t -> nth_error prior i = Some v ->
    nth_error res i = Some (if repeated t then VSeq [] else v).
Proof.
  intros HP Hm Hs Hf. split; [now apply pb_reads_records|].
  intros i num t v Hn Hin Ht Hv. rewrite (merges_absent _ _ _ _ _ _ _ Hm i num Hn Hin).
  now apply start_nth.
Qed.

(** Reading of a message that begins with valid records: after them the loop continues with
    the members they produced. *)
Lemma pb_continue P c f k prior rs mid tail :
  wf_penv P -> merges_message P (pb_room c) k prior rs mid ->
  let data := records_bytes rs ++ tail in
  small data -> (length (records_bytes rs) <= f)%nat ->
  des_fields P (pb_icfg c) (S f) k data prior
  = field_loop data (msg_numbers P k)
      (fun i wt prior pos =>
         match nth_error (m_fields (P k)) i with
         | Some fd => des_field P (pb_icfg c) (des_fields P (pb_icfg c) f) (snd fd) data wt prior pos
         | None => (RUB, prior, pos)
         end)
      (S (length data) - length rs) mid (length (records_bytes rs)).
Proof.
  intros HP Hm data Hs Hf. cbn [des_fields].
  destruct (message_facts P HP k) as (E & H1 & H2 & H3).
  rewrite start_clear. fold (msg_types P k). rewrite <- E.
  pose proof (records_length rs) as HL.
  assert (HL' : (length (records_bytes rs) <= length data)%nat) by (unfold data; rewrite app_length; lia).
  replace (S (length data)) with (length rs + (S (length data) - length rs))%nat at 1 by lia.
  assert (R : reads_members P (pb_icfg c) (msg_numbers P k) (msg_types P k)
                (start (msg_types P k) prior) rs mid).
  { apply (reader_merges P (pb_icfg c) (pb_room c) HP (pb_icfg_little c) eq_refl); auto.
    intro n. apply pb_room_ok. }
  rewrite (R H1 H2 H3 f data 0%nat _ Hs); [reflexivity| |exact Hf|].
  - unfold data. split; [rewrite app_length; lia|]. unfold window. cbn [skipn].
    rewrite firstn_app, firstn_all, Nat.sub_diag. apply app_nil_r.
  - intros i t wt p pos Ht. unfold msg_types in Ht.
    destruct (nth_error (m_fields (P k)) i) as [fd|] eqn:Ei.
    + rewrite (map_nth_error snd _ _ Ei) in Ht. now injection Ht as <-.
    + exfalso. apply nth_error_None in Ei.
      assert (D : nth_error (map snd (m_fields (P k))) i <> None) by congruence.
      apply nth_error_Some in D. rewrite map_length in D.
      exact (Nat.lt_irrefl _ (Nat.lt_le_trans _ _ _ D Ei)).
Qed.

Lemma index_of_none nums n : ~ In n nums -> index_of nums n = None.
Proof.
  induction nums as [|x nums IH]; intro H; cbn [index_of In] in *; [reflexivity|].
  destruct (N.eqb_spec x n); [tauto|]. now rewrite IH by tauto.
Qed.

Lemma zero_not_number P k : wf_penv P -> ~ In 0 (msg_numbers P k).
Proof.
  intros HP H. destruct (message_facts P HP k) as (_ & _ & _ & H3).
  rewrite forallb_forall in H3. specialize (H3 0 H). discriminate.
Qed.

Lemma has_at_mid {A} (a b t : list A) : has_at (a ++ b ++ t) (length a) b.
Proof.
  split; [rewrite !app_length; lia|]. unfold window.
  rewrite skipn_app, skipn_all, Nat.sub_diag. cbn [skipn app].
  rewrite firstn_app, firstn_all, Nat.sub_diag. apply app_nil_r.
Qed.

(** A tag with field number 0 ends reading with protocol_error, wherever it is. *)
Theorem pb_field_zero P c f k prior rs mid wt tail :
  wf_penv P -> merges_message P (pb_room c) k prior rs mid -> wt < 8 ->
  let data := records_bytes rs ++ leb128 wt ++ tail in
  small data -> (length (records_bytes rs) < f)%nat ->
  des_fields P (pb_icfg c) f k data prior
  = (RErr protocol_error, mid, (length (records_bytes rs) + 1)%nat).
Proof.
  intros HP Hm Hwt data Hs Hf. destruct f as [|f]; [lia|].
  assert (E1 : length (leb128 wt) = 1%nat).
  { assert (Hx : wt = 0 \/ wt = 1 \/ wt = 2 \/ wt = 3 \/ wt = 4 \/ wt = 5 \/ wt = 6 \/ wt = 7) by lia.
    clear -Hx. repeat destruct Hx as [->|Hx]; try reflexivity. subst wt. reflexivity. }
  assert (HL : (length data = length (records_bytes rs) + 1 + length tail)%nat).
  { unfold data. rewrite !app_length, E1. lia. }
  unfold data. rewrite (pb_continue P c f k prior rs mid (leb128 wt ++ tail) HP Hm Hs) by lia.
  fold data. pose proof (records_length rs) as HR.
  destruct (S (length data) - length rs)%nat as [|n] eqn:En; [lia|]. cbn [field_loop].
  replace (_ <? _)%nat with true by lia.
  rewrite (varint4_has data (length (records_bytes rs)) wt).
  - replace (N.shiftr wt 3) with 0.
    + rewrite index_of_none by now apply zero_not_number. now rewrite E1.
    + rewrite N.shiftr_div_pow2. change (2 ^ 3) with 8. now rewrite N.div_small.
  - change (pow256 4) with 4294967296. lia.
  - apply has_at_mid.
Qed.

(** A field with an unknown number is not skipped: its payload and what follows are read as
    records.  So whenever these bytes happen to be records of known fields, they are stored. *)
Theorem pb_unknown_payload_is_read P c f k prior rs1 mid num p tail rs2 res :
  wf_penv P -> merges_message P (pb_room c) k prior rs1 mid ->
  ~ In num (msg_numbers P k) -> 0 < num -> num < 2 ^ 29 ->
  payload_bytes p ++ tail = records_bytes rs2 ->
  merges P (pb_room c) (msg_numbers P k) (msg_types P k) mid rs2 res ->
  let data := records_bytes rs1 ++ record_bytes (num, p) ++ tail in
  small data -> (length data < f)%nat ->
  des_fields P (pb_icfg c) f k data prior = (ROk, res, length data).
Proof.
  intros HP Hm Hnot H0 Hnum Ep Hm2 data Hs Hf. destruct f as [|f]; [lia|].
  set (tag := 8 * num + wire_of p).
  assert (Ed : data = records_bytes rs1 ++ leb128 tag ++ records_bytes rs2).
  { unfold data, record_bytes. cbn [fst snd]. rewrite <- app_assoc, Ep. reflexivity. }
  assert (HL : (length data = length (records_bytes rs1) + length (leb128 tag)
                              + length (records_bytes rs2))%nat).
  { rewrite Ed, !app_length. lia. }
  assert (Hw : wire_of p < 8) by (destruct p; cbn; lia).
  assert (H1 : (0 < length (leb128 tag))%nat) by apply leb128_nonempty.
  rewrite Ed in Hs |- *.
  rewrite (pb_continue P c f k prior rs1 mid (leb128 tag ++ records_bytes rs2) HP Hm Hs) by lia.
  rewrite <- Ed in *. pose proof (records_length rs1) as HR1. pose proof (records_length rs2) as HR2.
  destruct (S (length data) - length rs1)%nat as [|n] eqn:En; [lia|]. cbn [field_loop].
  replace (_ <? _)%nat with true by lia. change (2 ^ 29) with 536870912 in Hnum.
  rewrite (varint4_has data (length (records_bytes rs1)) tag).
  2:{ unfold tag. change (pow256 4) with 4294967296. lia. }
  2:{ rewrite Ed. apply has_at_mid. }
  replace (N.shiftr tag 3) with num.
  2:{ rewrite N.shiftr_div_pow2. change (2 ^ 3) with 8. unfold tag. lia. }
  rewrite index_of_none by exact Hnot. replace (num =? 0) with false by lia.
  destruct (message_facts P HP k) as (E & G1 & G2 & G3).
  assert (R : reads_members P (pb_icfg c) (msg_numbers P k) (msg_types P k) mid rs2 res).
  { apply (reader_merges P (pb_icfg c) (pb_room c) HP (pb_icfg_little c) eq_refl); auto.
    intro z. apply pb_room_ok. }
  replace n with (length rs2 + (n - length rs2))%nat by lia.
  rewrite (R G1 G2 G3 f data _ _ Hs); [|rewrite Ed| |].
  - rewrite field_loop_end by lia. f_equal. lia.
  - rewrite app_assoc. rewrite <- app_length.
    rewrite <- (app_nil_r (records_bytes rs2)) at 1. apply has_at_mid.
  - lia.
  - intros i t wt x pos Ht. unfold msg_types in Ht.
    destruct (nth_error (m_fields (P k)) i) as [fd|] eqn:Ei.
    + rewrite (map_nth_error snd _ _ Ei) in Ht. now injection Ht as <-.
    + exfalso. apply nth_error_None in Ei.
      assert (D : nth_error (map snd (m_fields (P k))) i <> None) by congruence.
      apply nth_error_Some in D. rewrite map_length in D.
      exact (Nat.lt_irrefl _ (Nat.lt_le_trans _ _ _ D Ei)).
Qed.

(** message { int32 a = 1; }: valid protobuf messages with an unknown field 2 that change the
    value of [a] (here 5 becomes 7), or are rejected. *)
Definition pb_one : penv := fun _ => mkPmsg [(None, PVar 4 true false)] [] [VN 0].
Definition pb_unknown_bytes : list record :=
  [(1, WVar 5); (2, WLen [xac; x02; x08; x07; x08; x07; x08; x07])].
Theorem pb_unknown_skipped_refuted :
  wf_penv pb_one /\
  parse (records_bytes pb_unknown_bytes) = Some pb_unknown_bytes /\
  des_fields pb_one (pb_icfg vec_cfg) 20 0 (records_bytes pb_unknown_bytes) [VN 0]
  = (ROk, [VN 7], 12%nat) /\
  parse (records_bytes [(1, WVar 5); (2, WVar 0)]) = Some [(1, WVar 5); (2, WVar 0)] /\
  des_fields pb_one (pb_icfg vec_cfg) 20 0 (records_bytes [(1, WVar 5); (2, WVar 0)]) [VN 0]
  = (RErr protocol_error, [VN 5], 4%nat).
Proof. split; [intro k; reflexivity|]. repeat split; vm_compute; reflexivity. Qed.

Example pb_absent_nontrivial :
  let prior := [VSeq [VN 3]; VSeq [VN 1; VN 2]; VSeq []] in
  exists res, merges_message pb_hostile (pb_room vec_cfg) 0 prior
    [(1, WLen (records_bytes [(1, W64 9)])); (1, WLen (records_bytes []))] res /\
  res = [VSeq [VN 9]; VSeq []; VSeq []].
Proof.
  eexists. split; [|reflexivity]. unfold merges_message.
  eapply (mgs_cons _ _ _ _ _ 0%nat); try reflexivity.
  - apply mg_msg. eapply (mgs_cons _ _ _ _ _ 0%nat); try reflexivity.
    + apply mg_fix8. reflexivity.
    + apply mgs_nil.
  - cbn [set_nth start repeated msg_types map m_fields pb_hostile snd].
    eapply (mgs_cons _ _ _ _ _ 0%nat); try reflexivity.
    + apply mg_msg. apply mgs_nil.
    + apply mgs_nil.
Qed.

(** ** C34: lengths beyond the data *)

(** An announced size of at least the bytes available has the same effect as no size at all. *)
Theorem pb_size_clamped P c data fuel s k prior pos n p1 :
  s <> SzNone -> des_size c data s pos = (ROk, n, p1) ->
  (length data <= p1 + N.to_nat n)%nat ->
  des_pb_item P c data fuel s k prior pos = des_pb_item P c data fuel SzNone k prior p1.
Proof.
  intros Hne E Hn. unfold des_pb_item, des_protocol.
  assert (G : des_nested data (des_fields P (pb_icfg c) fuel k) (Some n) prior p1
              = des_nested data (des_fields P (pb_icfg c) fuel k) None prior p1).
  { unfold des_nested, rest_of. destruct (Nat.leb_spec p1 (length data)); [|reflexivity].
    rewrite skipn_length. now replace (N.to_nat _) with (length data - p1)%nat by lia. }
  destruct s; [congruence|..]; now rewrite E.
Qed.

Lemma merges_app P room nums ts rs1 : forall vals rs2 vals',
  merges P room nums ts vals (rs1 ++ rs2) vals' ->
  exists mid, merges P room nums ts vals rs1 mid /\ merges P room nums ts mid rs2 vals'.
Proof.
  induction rs1 as [|r rs1 IH]; intros vals rs2 vals' H.
  - exists vals. split; [constructor|exact H].
  - cbn [app] in H. inversion H; subst.
    match goal with Hx : merges _ _ _ _ _ (rs1 ++ rs2) _ |- _ => apply IH in Hx as (mid & A & B) end.
    exists mid. split; [|exact B]. eapply mgs_cons; eauto.
Qed.

(** So a message cut off after any number of its records is accepted, with the members of the
    missing records absent. *)
Theorem pb_truncated_accepted P c s k l prior rs1 rs2 pre fuel :
  wf_penv P -> pwt P (VSeq l) (PMsg k) = true -> pwt P (VSeq prior) (PMsg k) = true ->
  preadable P (pb_room c) (VSeq l) (PMsg k) = true ->
  message_records P k l = rs1 ++ rs2 ->
  let n := N.of_nat (length (message_bytes P k l)) in
  s <> SzNone -> pb_prefix_ok c s n ->
  let data := pre ++ proto_prefix c s n ++ records_bytes rs1 in
  N.of_nat (length data) < 2 ^ 63 -> (length data < fuel)%nat ->
  exists res,
    merges_message P (pb_room c) k prior rs1 res /\
    des_pb_item P c data fuel s k (VSeq prior) (length pre) = (ROk, VSeq res, length data).
Proof.
  intros HP Hw Hpr Hr Er n Hne Hpp data Hd Hf.
  pose proof (message_restored P (pb_room c) HP k l prior Hw Hr Hpr) as M. rewrite Er in M.
  apply merges_app in M as (res & M1 & _). exists res. split; [exact M1|].
  assert (Hat : has_at data (length pre) (proto_prefix c s n ++ records_bytes rs1)).
  { pose proof (has_at_mid pre (proto_prefix c s n ++ records_bytes rs1) []) as H.
    now rewrite app_nil_r in H. }
  apply has_at_app in Hat as [A1 A2].
  destruct Hpp as [Q1 Q2 Q3 Q4].
  pose proof (protocol_prefix_read c s n data (length pre) Q1 Hne Q2 (Q3 Hne) Q4 Hd A1) as E.
  assert (HL : (length data = length pre + length (proto_prefix c s n) + length (records_bytes rs1))%nat).
  { unfold data. rewrite !app_length. lia. }
  assert (Hle : (length (records_bytes rs1) <= N.to_nat n)%nat).
  { unfold n, message_bytes. rewrite Er. unfold records_bytes. rewrite flat_map_app, app_length. lia. }
  rewrite (pb_size_clamped P c data fuel s k (VSeq prior) (length pre) n _ Hne E) by lia.
  apply (pb_reads_unsized P c k prior rs1); auto; try lia.
  unfold small. change (2 ^ 63) with 9223372036854775808 in Hd.
  change (2 ^ 64) with 18446744073709551616. lia.
Qed.

(** The same inside a message: an embedded message whose length exceeds the enclosing
    message is read from what there is. *)
Theorem pb_embedded_clamped P c f k data wt prior pos n rs res :
  wf_penv P -> merges_message P (pb_room c) k prior rs res -> small data ->
  has_at data pos (leb128 n ++ records_bytes rs) -> n < pow256 8 ->
  length data = (pos + length (leb128 n ++ records_bytes rs))%nat ->
  (length (records_bytes rs) <= N.to_nat n)%nat -> (length (records_bytes rs) < f)%nat ->
  des_field P (pb_icfg c) (des_fields P (pb_icfg c) f) (PMsg k) data wt (VSeq prior) pos
  = (ROk, VSeq res, length data).
Proof.
  intros HP Hm Hs Hat Hn HL Hle Hf. cbn [des_field].
  change (dsize (pb_icfg c)) with (SzVar 8). unfold des_protocol. cbn [des_size].
  apply has_at_app in Hat as [A1 A2]. rewrite (varint8_has data pos n Hn A1).
  rewrite app_length in HL. unfold des_nested, rest_of. replace (_ <=? _)%nat with true by lia.
  rewrite skipn_length. replace (N.to_nat (N.min _ _)) with (length (records_bytes rs)) by lia.
  rewrite (has_at_rest _ _ _ A2). cbn [as_seq].
  rewrite (pb_reads_records P c f k prior rs res HP Hm); [|unfold small in *; lia|exact Hf].
  f_equal. lia.
Qed.

(** Unlike the native format, then, truncation can go unnoticed. *)
Theorem pb_truncation_detected_refuted :
  exists k l st', pb_writing pb_demo vec_cfg (SzFix 4) k l /\
    ser_pb_item pb_demo vec_cfg (SzFix 4) k l (mkO [] 0) = (ROk, st') /\
    exists v, des_pb_item pb_demo vec_cfg (firstn 8 (obuf st')) 40 (SzFix 4) k (VSeq l) 0
              = (ROk, v, 8%nat) /\ (8 < opos st')%nat /\ v <> VSeq l.
Proof.
  exists 0%nat, pb_demo_val. eexists. split; [apply pb_demo_writing; now right|].
  split; [vm_compute; reflexivity|]. eexists. split; [vm_compute; reflexivity|].
  split; [vm_compute; lia|]. vm_compute. discriminate.
Qed.

(** ** C35: alloc_limit *)

(** Reading makes the same decisions whether or not requests of more than the limit are
    granted - so it makes none - except for element-wise read containers with reserve. *)
Theorem pb_alloc_limit P c L data fuel s k prior pos :
  alim c = Some L ->
  (forall k, forallb (fun fd => no_reserve (snd fd)) (m_fields (P k)) = true) ->
  forall ok, (forall n, n <= L -> ok n = alloc_ok c n) ->
  des_pb_item P (with_alloc c ok) data fuel s k prior pos = des_pb_item P c data fuel s k prior pos.
Proof. intros HL HP ok Hok. now apply (des_pb_item_alloc P c L). Qed.

(** A string of 6 characters against a limit of 5: refused before anything is requested. *)
Example pb_alloc_nontrivial :
  let P : penv := fun _ => mkPmsg [(None, str); (None, PStrs (CSeq true (Some 32)) true 1)] [] [VSeq []; VSeq []] in
  (forall k, forallb (fun fd => no_reserve (snd fd)) (m_fields (P k)) = true) /\
  des_pb_item P (with_alloc (limit_cfg 5) (fun n => n <=? 5))
    [x0a; x05; x61; x62; x63; x64; x65; x12; x06; x61; x62; x63; x64; x65; x66] 20 SzNone 0
    (VSeq [VSeq []; VSeq []]) 0
  = (RErr message_size, VSeq [pb_text [0x61; 0x62; 0x63; 0x64; 0x65]; VSeq []], 9%nat).
Proof. split; [intro k; reflexivity|]. vm_compute. reflexivity. Qed.

(** Packed varints: whatever the limit, a message of a few bytes makes the reader request
    more ([reserve] of as many elements as the announced number of bytes). *)
Theorem pb_varint_reserve_refuted :
  forall L, L < 2 ^ 62 -> exists P data prior ok, wf_penv P /\ (length data <= 11)%nat /\
    (forall n, n <= L -> ok n = true) /\
    let run ok := fst (fst (des_pb_item P (with_alloc (limit_cfg L) ok) data 20 SzNone 0 prior 0)) in
    run ok = RThrow /\ run (fun _ => true) <> RThrow.
Proof.
  intros L HL.
  exists (fun _ => mkPmsg [(None, PVars (CSeq true (Some 1)) 8 false false)] [] [VSeq []]).
  exists ([x0a] ++ leb128 (2 ^ 62)), (VSeq [VSeq []]), (fun n => n <? 2 ^ 62).
  split; [intro k; reflexivity|]. split; [vm_compute; lia|].
  split; [intros n Hn; apply N.ltb_lt; lia|]. split.
  - vm_compute. reflexivity.
  - vm_compute. discriminate.
Qed.
