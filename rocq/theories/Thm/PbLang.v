(** C69: the messages the protobuf reader accepts, and what it makes of them. *)

From Coq Require Import List NArith ZArith Lia Bool Arith.
From Coq Require Import ZifyBool ZifyNat ZifyN.
From Verif Require Import Base.Bytes Model.Types Model.Machine Model.Varint Model.Out Model.In
  Model.Loops Model.Protocol Model.Pb
  Spec.Leb128 Spec.Wire Spec.Grammar Spec.PbWire Spec.PbMerge Spec.PbBreak Spec.PbStd Spec.PbGrammar
  Proofs.VarintP Proofs.OutP Proofs.InBase Proofs.InSafe Proofs.InLocal Proofs.InPrior
  Proofs.InRound Proofs.InHost Proofs.InGrammar Proofs.InFuel Proofs.ProtoP
  Proofs.PbOut Proofs.PbParse Proofs.PbIn Proofs.PbRead Proofs.PbLang
  Thm.Demo Thm.Output Thm.Protocol Thm.Pb Thm.PbInput.
Import ListNotations.
Local Open Scope N_scope.

Ltac Zify.zify_post_hook ::= Z.div_mod_to_equations.

(** A reader of messages: a well-formed schema, strict orders, an object to read into, and a
    recursion bound that is not reached. *)
Record pb_reading (P : penv) (k : nat) (prior : list val) (data : list byte) (fuel : nat) : Prop := {
  pr_env : wf_penv P;
  pr_cmp : pcmp_env P;
  pr_small : small data;
  pr_prior : pwt P (VSeq prior) (PMsg k) = true;
  pr_fuel : (length data < fuel)%nat
}.

Lemma icfg_little c : little_out (pb_icfg c).
Proof. unfold little_out, pb_icfg. cbn. now destruct (host_le c). Qed.

Lemma reading_settles P c k prior data fuel :
  pb_reading P k prior data fuel ->
  settles (message_takes P k prior data) (length data) (des_fields P (pb_icfg c) fuel k data prior).
Proof. intros [? ? ? ? ?]. apply des_fields_settles; auto. apply icfg_little. Qed.

(** Whatever is accepted is in the language, and all of it has been consumed. *)
Theorem pb_accepts_only P c k prior data fuel res p :
  pb_reading P k prior data fuel ->
  des_fields P (pb_icfg c) fuel k data prior = (ROk, res, p) ->
  p = length data /\ message_takes P k prior data res.
Proof.
  intros H E. pose proof (reading_settles P c k prior data fuel H) as S. rewrite E in S.
  destruct S as (S1 & S2 & _). auto.
Qed.

(** Whatever is in the language is accepted, with that result, unless memory or the
    allocation limit do not suffice. *)
Theorem pb_accepts_every P c k prior data fuel res :
  pb_reading P k prior data fuel -> message_takes P k prior data res ->
  des_fields P (pb_icfg c) fuel k data prior = (ROk, res, length data)
  \/ (let r := fst (fst (des_fields P (pb_icfg c) fuel k data prior)) in
      r = RErr message_size \/ r = RThrow).
Proof.
  intros H T. pose proof (reading_settles P c k prior data fuel H) as S.
  destruct H as [HP Hc Hsm Hw Hf].
  pose proof (des_fields_safe P true HP (pb_icfg c) eq_refl
    (fun k => proj2 (forallb_forall _ _) (fun _ _ => eq_refl)) Hc fuel k data prior Hsm Hf Hw) as F.
  destruct (des_fields P (pb_icfg c) fuel k data prior) as [[r vs] p]. cbn [fst].
  apply settles_cases in S as [(-> & -> & S1 & S2)|(Hr & [K|K])].
  - left. now rewrite (S2 res T).
  - right. destruct F as (_ & _ & _ & F). unfold allowed in *.
    destruct r as [|[]| | |]; cbn [resource] in K; try tauto; try (exfalso; now specialize (F eq_refl)).
  - exfalso. now apply (K res).
Qed.

(** The result does not depend on anything else: one message, one result. *)
Theorem pb_one_result P c k prior data fuel res res' p :
  pb_reading P k prior data fuel ->
  des_fields P (pb_icfg c) fuel k data prior = (ROk, res, p) ->
  message_takes P k prior data res' -> res' = res.
Proof.
  intros H E T. pose proof (reading_settles P c k prior data fuel H) as S. rewrite E in S.
  now apply S.
Qed.

(** Any other failure means that the message is not in the language. *)
Theorem pb_rejects_only P c k prior data fuel r vs p :
  pb_reading P k prior data fuel ->
  des_fields P (pb_icfg c) fuel k data prior = (r, vs, p) ->
  r <> ROk -> r <> RErr message_size -> r <> RThrow ->
  forall res, ~ message_takes P k prior data res.
Proof.
  intros H E N1 N2 N3 res T.
  destruct (pb_accepts_every P c k prior data fuel res H T) as [A|A]; rewrite E in A; [congruence|].
  cbn [fst] in A. tauto.
Qed.

(** ** Messages among other items *)

(** Where the message stands in the input [b]: without a size type it is all of it, otherwise
    a size, then at most that many bytes. *)
Definition framed (o : wfmt) (s : sizety) (b m rest : list byte) : Prop :=
  match s with
  | SzNone => b = m /\ rest = []
  | _ => exists e n, b = e ++ m ++ rest /\ size_is o (Some s) e n /\ content n m rest
  end.

Lemma item_decides P c s k prior data fuel pos :
  wf_penv P -> pcmp_env P -> wfsz (Some s) = true -> small data -> (pos <= length data)%nat ->
  (length data - pos < fuel)%nat -> pwt P (VSeq prior) (PMsg k) = true ->
  decides data (fun v r => exists m vals, v = VSeq vals /\
      framed (fmt_of c) s (skipn pos data) m r /\ message_takes P k prior m vals) pos
    (des_pb_item P c data fuel s k (VSeq prior) pos).
Proof.
  intros HP Hc Hs Hsm Hp Hf Hw.
  assert (HF : forall sub, (length sub <= length data - pos)%nat ->
    settles (message_takes P k prior sub) (length sub) (des_fields P (pb_icfg c) fuel k sub prior)).
  { intros sub Hl. apply des_fields_settles; auto; [apply icfg_little|unfold small in *; lia|lia]. }
  set (fields := des_fields P (pb_icfg c) fuel k) in *.
  (* the fields, once the extent is known *)
  assert (HN : forall size q (D : val -> list byte -> Prop) sub,
    (pos <= q <= length data)%nat ->
    sub = firstn (match size with
                  | Some n => N.to_nat (N.min n (N.of_nat (length (skipn q data))))
                  | None => length (skipn q data)
                  end) (skipn q data) ->
    (forall v r, D v r <-> exists vals, v = VSeq vals /\ message_takes P k prior sub vals
                                        /\ r = skipn (length sub) (skipn q data)) ->
    decides data D q (des_nested data fields size (VSeq prior) q)).
  { intros size q D sub Hq Es HD. unfold des_nested, rest_of.
    replace (q <=? length data)%nat with true by lia. cbn [as_seq].
    rewrite <- Es.
    assert (HL : (length sub <= length data - q)%nat)
      by (rewrite Es, firstn_length, skipn_length; lia).
    specialize (HF sub ltac:(lia)). destruct (fields sub prior) as [[r vs] p].
    apply settles_cases in HF as [(-> & -> & S1 & S2)|(Hr & K)].
    - cbn [decides]. split; [lia|]. rewrite <- skipn_skipn. split; [apply HD; eauto|].
      intros v r Hv. apply HD in Hv as (vals & -> & T & ->). apply S2 in T as ->. auto.
    - assert (G : forall v p', decides data D q (r, v, p')).
      { intros v p'. apply decides_fail; [exact Hr|]. destruct K as [K|K]; [now left|right].
        intros v' r' Hv. apply HD in Hv as (vals & _ & T & _). now apply K in T. }
      destruct r; apply G. }
  unfold des_pb_item. fold fields. 
  assert (Hn : s = SzNone \/ s <> SzNone) by (destruct s; auto; right; discriminate).
  destruct Hn as [->|Hn].
  - cbn [des_protocol framed]. eapply HN; [lia|reflexivity|]. rewrite firstn_all.
    intros v r. rewrite skipn_all. split.
    + intros (m & vals & -> & (<- & ->) & T). eauto.
    + intros (vals & -> & T & ->). exists (skipn pos data), vals. auto.
  - assert (E : des_protocol c data s (des_nested data fields) (VSeq prior) pos =
      match des_size c data s pos with
      | (ROk, n, pos') => des_nested data fields (Some n) (VSeq prior) pos'
      | (r, _, pos') => (r, VSeq prior, pos')
      end) by (destruct s; [congruence|reflexivity|reflexivity]).
    rewrite E. clear E.
    pose proof (size_accepted data c Hsm (Some s) pos Hs Hn Hp) as A. cbn [sz_of] in A.
    apply accepted_decides in A; [|apply size_unique|exact Hp].
    set (D1 := fun n r => exists e, skipn pos data = e ++ r /\ size_is (fmt_of c) (Some s) e n) in A.
    set (D2 := fun n r1 v r => exists sub vals, v = VSeq vals /\ r1 = sub ++ r /\ content n sub r
                 /\ message_takes P k prior sub vals).
    match goal with |- decides _ ?D _ _ => assert (HD : forall v r, D v r <-> exists n r1, D1 n r1 /\ D2 n r1 v r) end.
    { intros v r. unfold D1, D2. split.
      - intros (m & vals & -> & Fr & T).
        assert (Fr' : exists e n, skipn pos data = e ++ m ++ r /\ size_is (fmt_of c) (Some s) e n /\ content n m r)
          by (destruct s; [congruence|exact Fr|exact Fr]).
        destruct Fr' as (e & n & E & Z & C). exists n, (m ++ r). split; [eauto|]. eauto 8.
      - intros (n & r1 & (e & E & Z) & m & vals & -> & -> & C & T). exists m, vals.
        split; [reflexivity|]. split; [|exact T].
        assert (Fr : exists e n, skipn pos data = e ++ m ++ r /\ size_is (fmt_of c) (Some s) e n /\ content n m r)
          by eauto.
        destruct s; [congruence|exact Fr|exact Fr]. }
    destruct (des_size c data s pos) as [[r n] q].
    assert (Kr : r = ROk \/ r <> ROk) by (destruct r; auto; right; discriminate).
    destruct Kr as [->|Hr].
    2:{ pose proof (decides_first data D1 D2 _ pos r n q (VSeq prior) q (fun b r0 => proj1 (HD b r0)) Hr A) as G.
        destruct r; try exact G; congruence. }
    eapply decides_then; [exact HD|exact A|]. destruct A as (A1 & _).
    eapply HN; [lia|reflexivity|]. intros v r. unfold D2. set (b := skipn q data). split.
    + intros (s' & vals & -> & E & C & T). apply (content_split n b s' r E) in C. rewrite <- C.
      exists vals. split; [reflexivity|]. split; [exact T|].
      rewrite E, skipn_app, Nat.sub_diag, skipn_all. reflexivity.
    + intros (vals & -> & T & ->). eexists _, vals. split; [reflexivity|].
      assert (E : b = firstn (N.to_nat (N.min n (N.of_nat (length b)))) b
                    ++ skipn (length (firstn (N.to_nat (N.min n (N.of_nat (length b)))) b)) b).
      { rewrite firstn_length. replace (Nat.min _ _) with (N.to_nat (N.min n (N.of_nat (length b)))) by lia.
        symmetry. apply firstn_skipn. }
      split; [exact E|]. split; [|exact T]. apply (content_split n b); [exact E|reflexivity].
Qed.

Theorem pb_item_language P c s k prior data fuel pos :
  wf_penv P -> pcmp_env P -> wfsz (Some s) = true -> small data -> (pos <= length data)%nat ->
  (length data - pos < fuel)%nat -> pwt P (VSeq prior) (PMsg k) = true ->
  match des_pb_item P c data fuel s k (VSeq prior) pos with
  | (ROk, v, p) =>
      exists m vals rest, v = VSeq vals /\ framed (fmt_of c) s (skipn pos data) m rest /\
        message_takes P k prior m vals /\ (pos <= p <= length data)%nat /\ rest = skipn p data
  | (r, _, _) =>
      r = RErr message_size \/ r = RThrow \/
      forall m vals rest, framed (fmt_of c) s (skipn pos data) m rest -> ~ message_takes P k prior m vals
  end.
Proof.
  intros HP Hc Hs Hsm Hp Hf Hw.
  pose proof (item_decides P c s k prior data fuel pos HP Hc Hs Hsm Hp Hf Hw) as D.
  pose proof (des_pb_item_safe P c true data fuel s k (VSeq prior) pos HP Hc
    (fun k => proj2 (forallb_forall _ _) (fun _ _ => eq_refl)) Hs Hsm Hp Hf Hw) as F.
  destruct (des_pb_item P c data fuel s k (VSeq prior) pos) as [[r v] p].
  destruct F as (_ & _ & _ & F).
  apply decides_cases in D as [(-> & D1 & (m & vals & -> & D2 & D3) & _)|(Hr & K)].
  - exists m, vals, (skipn p data). auto.
  - assert (G : r = RErr message_size \/ r = RThrow \/
      forall m vals rest, framed (fmt_of c) s (skipn pos data) m rest -> ~ message_takes P k prior m vals).
    { destruct K as [K|K].
      - destruct r as [|[]| | |]; cbn [resource] in K; try tauto; congruence.
      - right. right. intros m vals rest Fr T. apply (K (VSeq vals) rest). eauto. }
    destruct r; try exact G. congruence.
Qed.

(** ** The wire type *)

(** Only containers of numbers look at the wire type, and they only tell 2 from the rest. *)
Theorem pb_wire_type_unused P t wt wt' at_ prior b v rest :
  (forall ck w, t <> PFixes ck w) -> (forall ck w sg zz, t <> PVars ck w sg zz) ->
  takes P t wt at_ prior b v rest -> takes P t wt' at_ prior b v rest.
Proof.
  intros H1 H2 T. destruct T; try (econstructor; eassumption);
    try (exfalso; eapply H1; reflexivity); exfalso; eapply H2; reflexivity.
Qed.

(** ** Examples *)

Definition pb_lax : penv := fun k =>
  match k with
  | O => mkPmsg [(None, PVar 4 true false); (None, PVars (CSeq true (Some 8)) 8 false false);
                 (None, PFixes (CSeq true (Some 4)) 4); (None, PMsg 1);
                 (None, PMap map_kind (PFix 4) str); (None, PStrs (CSeq true (Some 24)) true 1)]
           [] [VN 0; VSeq []; VSeq []; VSeq [VN 0]; VSeq []; VSeq []]
  | _ => mkPmsg [(None, PFix 8)] [] [VN 0]
  end.

Lemma pb_lax_wf : wf_penv pb_lax.
Proof. intros [|k]; vm_compute; reflexivity. Qed.
Lemma pb_lax_cmp : pcmp_env pb_lax.
Proof.
  intros [|k]; cbn [pb_lax m_fields].
  - repeat (apply Forall_cons); try apply Forall_nil; cbn [snd pcmp_ok ck_laws]; try exact I.
    split; [now apply lt_n_order|]. split; exact I.
  - repeat constructor.
Qed.

(** No protobuf writer produces this: a tag with a superfluous digit, a variable length number
    under the wire type of a 32-bit one, a tag of an unknown number with nothing behind it, a
    packed block of one byte holding an element of two, five bytes announced for a number of
    four with the fifth read as a tag, and an embedded message announcing more than there is. *)
Definition pb_lax_bytes : list byte :=
  [x88; x00; x05;   x0d; x06;   x52;   x12; x01; xac; x02;
   x1a; x05; x01; x00; x00; x00;   x52;   x32; x01; x41;
   x22; x7f; x09; x01; x02; x03; x04; x05; x06; x07; x08].
Definition pb_lax_vals : list val :=
  [VN 6; VSeq [VN 300]; VSeq [VN 1]; VSeq [VN 0x0807060504030201]; VSeq []; VSeq [VSeq [VN 65]]].

Example pb_language_nontrivial :
  pb_reading pb_lax 0 (m_dflt (pb_lax 0%nat)) pb_lax_bytes 40 /\
  des_fields pb_lax (pb_icfg vec_cfg) 40 0 pb_lax_bytes (m_dflt (pb_lax 0%nat))
  = (ROk, pb_lax_vals, length pb_lax_bytes) /\
  message_takes pb_lax 0 (m_dflt (pb_lax 0%nat)) pb_lax_bytes pb_lax_vals /\
  parse pb_lax_bytes = None.
Proof.
  assert (H : pb_reading pb_lax 0 (m_dflt (pb_lax 0%nat)) pb_lax_bytes 40).
  { constructor; [apply pb_lax_wf|apply pb_lax_cmp|vm_compute; reflexivity|vm_compute; reflexivity|cbn; lia]. }
  assert (E : des_fields pb_lax (pb_icfg vec_cfg) 40 0 pb_lax_bytes (m_dflt (pb_lax 0%nat))
              = (ROk, pb_lax_vals, length pb_lax_bytes)) by (vm_compute; reflexivity).
  split; [exact H|]. split; [exact E|]. split; [|vm_compute; reflexivity].
  now apply (pb_accepts_only _ _ _ _ _ _ _ _ H E).
Qed.

Example pb_item_language_nontrivial :
  let data := xee :: x1f :: pb_lax_bytes ++ [xff; xff] in
  small data /\
  des_pb_item pb_lax vec_cfg data 40 (SzFix 1) 0 (VSeq (m_dflt (pb_lax 0%nat))) 1
  = (ROk, VSeq pb_lax_vals, (2 + length pb_lax_bytes)%nat) /\
  framed (fmt_of vec_cfg) (SzFix 1) (skipn 1 data) pb_lax_bytes [xff; xff].
Proof.
  cbn zeta. split; [vm_compute; reflexivity|]. split; [vm_compute; reflexivity|].
  exists [x1f], 31. split; [reflexivity|]. split; [split; reflexivity|]. left. reflexivity.
Qed.

(** A message that is not in the language: member 1 begins and nothing follows. *)
Example pb_rejects_nontrivial :
  forall res, ~ message_takes pb_lax 0 (m_dflt (pb_lax 0%nat)) [x08] res.
Proof.
  assert (H : pb_reading pb_lax 0 (m_dflt (pb_lax 0%nat)) [x08] 40).
  { constructor; [apply pb_lax_wf|apply pb_lax_cmp|vm_compute; reflexivity|vm_compute; reflexivity|cbn; lia]. }
  eapply (pb_rejects_only pb_lax vec_cfg); [exact H|vm_compute; reflexivity|discriminate..].
Qed.

(** ** Where the language is not that of protobuf *)

(** A record of another wire type is not skipped (protobuf: "if the wire type does not match,
    the field is unknown"): here its payload sets the member to 5, then to 6. *)
Theorem pb_wire_type_refuted :
  exists rs, wf_penv pb_one /\ parse (records_bytes rs) = Some rs /\
    std_message pb_one 0 [VN 0] rs [VN 0] /\
    des_fields pb_one (pb_icfg vec_cfg) 20 0 (records_bytes rs) [VN 0]
    = (ROk, [VN 6], length (records_bytes rs)).
Proof.
  exists [(1, W32 0x10060805)]. split; [intro k; reflexivity|].
  split; [vm_compute; reflexivity|]. split; [|vm_compute; reflexivity].
  apply sts_skip; try reflexivity; [|constructor].
  intros [|[|i]] t Hi Ht; cbn in Hi, Ht; try discriminate. injection Ht as <-.
  cbn. intros [?|[]]. discriminate.
Qed.

(** A packed block may end in the middle of its last number. *)
Definition pb_packed (ck : ckind) : penv := fun _ => mkPmsg [(None, PVars ck 4 false false)] [] [VSeq []].
Theorem pb_packed_end_refuted :
  exists data res, wf_penv (pb_packed (CSeq true (Some 4))) /\ parse data = None /\
    des_fields (pb_packed (CSeq true (Some 4))) (pb_icfg vec_cfg) 20 0 data [VSeq []] = (ROk, res, length data) /\
    res = [VSeq [VN 300]].
Proof.
  exists [x0a; x01; xac; x02], [VSeq [VN 300]]. split; [intro k; reflexivity|].
  repeat split; vm_compute; reflexivity.
Qed.

(** A length of 2^64 - 1 wraps around: the block counts as empty, although nothing like that
    many bytes are left.  (std::list: a container without reserve.) *)
Theorem pb_packed_length_refuted :
  exists data, wf_penv (pb_packed (CSeq false None)) /\ parse data = None /\
    des_fields (pb_packed (CSeq false None)) (pb_icfg vec_cfg) 20 0 data [VSeq []]
    = (ROk, [VSeq []], length data) /\
    data = leb128 10 ++ leb128 (2 ^ 64 - 1).
Proof.
  exists (leb128 10 ++ leb128 (2 ^ 64 - 1)). split; [intro k; reflexivity|].
  split; [|split; [vm_compute; reflexivity|reflexivity]].
  set (len := leb128 (2 ^ 64 - 1)).
  assert (HL : leb_value len = Some (2 ^ 64 - 1, 10%nat)) by (vm_compute; reflexivity).
  assert (HS : skipn 10 len = []) by (vm_compute; reflexivity).
  change (leb128 10) with [x0a]. unfold parse. cbn [app length parse_records].
  change (leb_value (x0a :: len)) with (Some (10, 1%nat)). cbv beta iota.
  change (10 / 8 =? 0) with false. change (10 mod 8) with 2. change (skipn 1 (x0a :: len)) with len.
  unfold parse_payload. rewrite HL, HS. unfold take. cbn [length].
  replace (N.to_nat (2 ^ 64 - 1) <=? 0)%nat with false; [reflexivity|].
  symmetry. apply Nat.leb_gt. lia.
Qed.

(** A packed block of fixed-width numbers whose length is not a multiple of their width: the
    bytes left over are taken for records (here they set the second member to 7). *)
Definition pb_rest : penv := fun _ =>
  mkPmsg [(None, PFixes (CSeq true (Some 4)) 4); (None, PVar 4 true false)] [] [VSeq []; VN 0].
Theorem pb_packed_rest_refuted :
  exists rs, wf_penv pb_rest /\ parse (records_bytes rs) = Some rs /\
    rs = [(1, WLen [x01; x00; x00; x00; x10; x07])] /\
    (forall res, ~ std_message pb_rest 0 [VSeq []; VN 0] rs res) /\
    des_fields pb_rest (pb_icfg vec_cfg) 20 0 (records_bytes rs) [VSeq []; VN 0]
    = (ROk, [VSeq [VN 1]; VN 7], length (records_bytes rs)).
Proof.
  exists [(1, WLen [x01; x00; x00; x00; x10; x07])]. split; [intro k; reflexivity|].
  split; [vm_compute; reflexivity|]. split; [reflexivity|]. split; [|vm_compute; reflexivity].
  intros res H. unfold std_message in H. inversion H; subst.
  - destruct i as [|[|[|i]]]; cbn in *; try discriminate.
    repeat match goal with K : Some _ = Some _ |- _ => injection K as <- end.
    match goal with K : std _ _ _ _ _ _ _ |- _ => revert K end.
    generalize (eq_refl (WLen [x01; x00; x00; x00; x10; x07])).
    generalize (eq_refl (PFixes (CSeq true (Some 4)) 4)).
    generalize (PFixes (CSeq true (Some 4)) 4) at 1 3. intros t Et.
    generalize (WLen [x01; x00; x00; x00; x10; x07]) at 1 3. intros pl Ep K.
    destruct K; try discriminate; injection Et as -> ->; try discriminate.
    injection Ep as Ep. apply (f_equal (@length byte)) in Ep. subst b.
    destruct ns as [|? [|? ns]]; cbn in Ep; lia.
  - match goal with K : foreign _ _ _ _ |- _ => apply (K 0%nat _ eq_refl eq_refl) end. left. reflexivity.
Qed.

Print Assumptions pb_accepts_only.
Print Assumptions pb_accepts_every.
Print Assumptions pb_one_result.
Print Assumptions pb_rejects_only.
Print Assumptions pb_item_language.
Print Assumptions pb_wire_type_unused.
Print Assumptions pb_wire_type_refuted.
Print Assumptions pb_packed_end_refuted.
Print Assumptions pb_packed_length_refuted.
Print Assumptions pb_packed_rest_refuted.
