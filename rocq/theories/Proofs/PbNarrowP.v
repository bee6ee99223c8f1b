(** The protobuf reader of other widths of std::size_t implements the specification of reading
    records, and is safe.  The proofs are those of Proofs/PbIn.v and Proofs/PbRead.v. *)

From Coq Require Import List NArith ZArith Lia Bool Arith.
From Coq Require Import ZifyBool ZifyNat ZifyN.
From Verif Require Import Base.Bytes Model.Types Model.Machine Model.Varint Model.Out Model.In
  Model.Loops Model.Protocol Model.Pb Model.PbNarrow
  Spec.Leb128 Spec.Wire Spec.PbWire Spec.PbMerge
  Proofs.VarintP Proofs.OutP Proofs.InBase Proofs.InSafe Proofs.InRound Proofs.InFuel Proofs.ProtoP
  Proofs.PbOut Proofs.PbParse Proofs.PbIn Proofs.PbRead.
Import ListNotations.
Local Open Scope N_scope.

Ltac Zify.zify_post_hook ::= Z.div_mod_to_equations.

(** Data as there is on such a platform. *)
Definition zsmall (z : nat) (data : list byte) : Prop := N.of_nat (length data) < pow256 z.

Lemma wfw_le z : wfw z = true -> pow256 z <= 2 ^ 64.
Proof.
  unfold wfw. intro H. rewrite !orb_true_iff, !Nat.eqb_eq in H.
  destruct H as [[[-> | ->] | ->] | ->]; vm_compute; discriminate.
Qed.

Lemma zsmall_small z data : wfw z = true -> zsmall z data -> small data.
Proof. intro H. apply wfw_le in H. unfold zsmall, small. lia. Qed.

Lemma varintz_has z data pos n :
  wfw z = true -> n < pow256 z -> has_at data pos (leb128 n) ->
  des_varint z false 0 data pos = (ROk, n, (pos + length (leb128 n))%nat).
Proof.
  intros Hz Ht H. change n with (varint_number z false false n) in H.
  apply (des_varint_has (mkCfg true false (SzVar 8) None 1 1 false false true (fun _ => true) (fun _ => 0))
           data z false false 0 n pos Hz Ht ltac:(discriminate) H).
Qed.

Lemma small_ltz z data n : zsmall z data -> (n <= length data)%nat -> N.of_nat n < pow256 z.
Proof. unfold zsmall. lia. Qed.

Section ReadNarrow.
  Variables (z : nat) (P : penv) (c : cfg) (room : N -> bool).
  Hypothesis (HP : wf_penv P) (Hlo : little_out c) (Hz8 : wfw z = true) (Hd : dsize c = SzVar z).
  Hypothesis Hroom : forall n, room n = true ->
    can_alloc c n = true /\ match alim c with Some lim => n <= lim | None => True end.

  Lemma q_scalar_has data w prior n pos :
    zsmall z data -> n < pow256 w -> has_at data pos (le_bytes w n) ->
    des_scalar c data w prior pos = (ROk, n, (pos + w)%nat).
  Proof.
    intros Hs Hn H. apply (zsmall_small z _ Hz8) in Hs. apply des_scalar_has; auto. unfold wscalar, fmt_of. cbn [little].
    now rewrite Hlo.
  Qed.

  (** Elements of a container of scalars already of the right size. *)
  Lemma q_elems_has data rec contig w l priors pos :
    zsmall z data -> wfw w = true -> forallb (numok w) l = true -> forallb (numok w) priors = true ->
    length priors = length l -> has_at data pos (flat_map (fun x => le_bytes w (vnum x)) l) ->
    des_elems c data (as_bytes c (scalar_ty w) && contig) (des_ty no_types c data rec (scalar_ty w))
      (scalar_ty w) priors pos
    = (ROk, VSeq l, (pos + length (flat_map (fun x => le_bytes w (vnum x)) l))%nat).
  Proof.
    intros Hs Hw Hl Hp Hlen H. apply (zsmall_small z _ Hz8) in Hs.
    pose proof (enc_all_scalars (fmt_of c) w (w =? 1)%nat l Hlo Hl) as E. fold (scalar_ty w) in E.
    pose proof (des_elems_reads no_types c data Hs (as_bytes c (scalar_ty w) && contig)
      (des_ty no_types c data rec (scalar_ty w)) (scalar_ty w) l priors pos) as R.
    rewrite E in R. cbn [fst snd pdone] in R. apply R; auto.
    - now apply scalar_ty_wf.
    - intro Hb. now apply andb_true_iff in Hb as [Hb _].
    - now rewrite forallb_numok.
    - intros x Hin _ prior p Hwt Hx. rewrite forallb_forall in Hl. specialize (Hl x Hin).
      destruct x as [n| | | | | | |]; try discriminate. cbn [numok] in Hl.
      unfold scalar_ty in *. cbn [enc pdone fst des_ty] in *.
      rewrite (des_scalar_has c data Hs w _ n p) by (auto; lia).
      unfold nres. now rewrite wscalar_length.
    - now rewrite forallb_numok.
  Qed.

  Lemma q_room_limit n w count :
    room n = true -> n = count * N.of_nat w -> (0 < w)%nat ->
    match alim c with Some l => l / N.of_nat w <? count | None => false end = false.
  Proof.
    intros Hr Hn Hw. destruct (Hroom n Hr) as [_ H]. revert H. case (alim c); [|reflexivity].
    intros lim H. apply N.ltb_ge. apply N.div_le_lower_bound; lia.
  Qed.

  Lemma q_room_bytes n :
    room n = true -> match alim c with Some lim => lim <? n | None => false end = false.
  Proof.
    intro Hr. destruct (Hroom n Hr) as [_ H]. revert H. case (alim c); [|reflexivity].
    intros lim H. now apply N.ltb_ge.
  Qed.

  Lemma q_str_has data rec contig w m pos :
    zsmall z data -> wfw w = true -> forallb (numok w) m = true ->
    room (N.of_nat (length (flat_map (fun x => le_bytes w (vnum x)) m))) = true ->
    has_at data pos (leb128 (N.of_nat (length m)) ++ flat_map (fun x => le_bytes w (vnum x)) m) ->
    des_ty no_types c data rec (TVec None contig (scalar_ty w)) (VSeq []) pos
    = (ROk, VSeq m, (pos + length (leb128 (N.of_nat (length m))
        ++ flat_map (fun x => le_bytes w (vnum x)) m))%nat).
  Proof.
    intros Hs Hw Hm Hr H. cbn [des_ty sz_of]. rewrite Hd. cbn [des_size].
    apply has_at_app in H as [H1 H2].
    pose proof (wfw_pos w Hw) as Hwp.
    pose proof (flat_le_length w m) as HL.
    rewrite (varintz_has z data pos (N.of_nat (length m))) by
      (try exact Hz8; try exact H1; apply (small_ltz z data); auto; apply has_at_le in H2; rewrite HL in H2; nia).
    unfold vec_resize, over_limit, csizeof, scalar_ty. cbn [bs bsize as_seq].
    fold (scalar_ty w).
    assert (EL : N.of_nat (length m) * N.of_nat w
                 = N.of_nat (length (flat_map (fun x => le_bytes w (vnum x)) m))) by (rewrite HL; lia).
    assert (E1 : match alim c with
                 | Some l => l / N.of_nat w <? N.of_nat (length m) | None => false end = false).
    { apply (q_room_limit _ _ _ Hr); lia. }
    rewrite E1, EL. destruct (Hroom _ Hr) as [Hc _]. rewrite Hc, orb_true_r.
    rewrite Nat2N.id. rewrite app_length, Nat.add_assoc.
    apply (q_elems_has data rec contig w m); auto.
    - change (dflt no_types (scalar_ty w)) with (VN 0). unfold vresize.
      rewrite firstn_nil. cbn [app length]. rewrite Nat.sub_0_r.
      apply forallb_forall. intros x Hx. apply repeat_spec in Hx. subst x. cbn.
      pose proof (pow256_pos w). lia.
    - apply vresize_length.
  Qed.

  Definition q_reads_member (t : pty) (prior : val) (p : payload) (v : val) : Prop :=
    wfp t = true -> forall f data pos, zsmall z data -> has_at data pos (payload_bytes p) ->
    (length (payload_bytes p) <= f)%nat ->
    qdes_field z P c (qdes_fields z P c f) t data (wire_of p) prior pos
    = (ROk, v, (pos + length (payload_bytes p))%nat).

  Definition q_reads_members (nums : list N) (ts : list pty) (vals : list val) (rs : list record)
    (vals' : list val) : Prop :=
    forallb wfp ts = true -> distinct nums = true ->
    forallb (fun n => (0 <? n) && (n <? 2 ^ 29)) nums = true ->
    forall f data pos fld, zsmall z data -> has_at data pos (records_bytes rs) ->
    (length (records_bytes rs) <= f)%nat ->
    (forall i t wt prior pos, nth_error ts i = Some t ->
       fld i wt prior pos = qdes_field z P c (qdes_fields z P c f) t data wt prior pos) ->
    forall n, field_loop data nums fld (length rs + n) vals pos
              = field_loop data nums fld n vals' (pos + length (records_bytes rs))%nat.

  Lemma q_message_facts k :
    msg_numbers P k = numbers (P k) /\ forallb wfp (msg_types P k) = true /\
    distinct (msg_numbers P k) = true /\
    forallb (fun n => (0 <? n) && (n <? 2 ^ 29)) (msg_numbers P k) = true.
  Proof.
    destruct (wf_pmsg_facts P k (HP k)) as (H1 & H2 & H3 & H4 & _).
    assert (E : msg_numbers P k = numbers (P k)).
    { unfold msg_numbers, numbers. now rewrite numbers_spec_numbers. }
    rewrite E. repeat split; auto. unfold msg_types. clear -H1.
    induction (m_fields (P k)) as [|fd fs IH]; [reflexivity|].
    cbn [map forallb] in *. apply andb_true_iff in H1 as [-> H1]. cbn. now apply IH.
  Qed.

  Lemma q_field_loop_end data nums fld n vals pos :
    pos = length data -> field_loop data nums fld n vals pos = (ROk, vals, pos).
  Proof. intros ->. destruct n; cbn [field_loop]; now rewrite Nat.ltb_irrefl. Qed.

  Lemma q_fields_read f k prior rs res :
    q_reads_members (msg_numbers P k) (msg_types P k) (start (msg_types P k) prior) rs res ->
    zsmall z (records_bytes rs) -> (length (records_bytes rs) < f)%nat ->
    qdes_fields z P c f k (records_bytes rs) prior = (ROk, res, length (records_bytes rs)).
  Proof.
    intros H Hs Hf. destruct f as [|f]; [lia|]. cbn [qdes_fields].
    destruct (q_message_facts k) as (E & H1 & H2 & H3).
    rewrite start_clear. fold (msg_types P k). rewrite <- E.
    pose proof (records_length rs) as HL.
    replace (S (length (records_bytes rs))) with
      (length rs + (S (length (records_bytes rs)) - length rs))%nat by lia.
    rewrite (H H1 H2 H3 f (records_bytes rs) 0%nat _ Hs).
    - rewrite q_field_loop_end by reflexivity. reflexivity.
    - split; [lia|apply window_all].
    - lia.
    - intros i t wt p pos Ht. unfold msg_types in Ht.
      destruct (nth_error (m_fields (P k)) i) as [fd|] eqn:Ei.
      + rewrite (map_nth_error snd _ _ Ei) in Ht. now injection Ht as <-.
      + exfalso. apply nth_error_None in Ei.
        assert (D : nth_error (map snd (m_fields (P k))) i <> None) by congruence.
        apply nth_error_Some in D. rewrite map_length in D.
        exact (Nat.lt_irrefl _ (Nat.lt_le_trans _ _ _ D Ei)).
  Qed.

  (** A length-delimited message whose fields are read by [fields]. *)
  Lemma q_nested_reads data fields prior b res pos :
    zsmall z data -> has_at data pos (leb128 (N.of_nat (length b)) ++ b) ->
    fields b (as_seq prior) = (ROk, res, length b) ->
    des_protocol c data (dsize c) (des_nested data fields) prior pos
    = (ROk, VSeq res, (pos + length (leb128 (N.of_nat (length b)) ++ b))%nat).
  Proof.
    intros Hs H Hf. unfold des_protocol. rewrite Hd. cbn [des_size].
    apply has_at_app in H as [H1 H2]. pose proof (has_at_le _ _ _ H2) as HL.
    rewrite (varintz_has z data pos (N.of_nat (length b))) by
      (try exact Hz8; try exact H1; apply (small_ltz z data); auto; lia).
    unfold des_nested, rest_of. replace (_ <=? _)%nat with true by lia.
    rewrite skipn_length.
    replace (N.to_nat _) with (length b) by lia.
    rewrite (has_at_rest _ _ _ H2), Hf, app_length. f_equal. lia.
  Qed.

  Lemma q_reader_merges :
    (forall t prior p v, merge P room t prior p v -> q_reads_member t prior p v) /\
    (forall nums ts vals rs vals', merges P room nums ts vals rs vals' ->
       q_reads_members nums ts vals rs vals').
  Proof.
    apply merge_merges_ind.
    - (* fix4 *) intros p n Hn Hwf f data pos Hs H Hl. cbn [payload_bytes wire_of qdes_field] in *.
      rewrite (q_scalar_has data 4 _ n pos Hs Hn H). cbn [nres]. now rewrite le_bytes_length.
    - (* fix8 *) intros p n Hn Hwf f data pos Hs H Hl. cbn [payload_bytes wire_of qdes_field] in *.
      rewrite (q_scalar_has data 8 _ n pos Hs Hn H). cbn [nres]. now rewrite le_bytes_length.
    - (* bool *) intros p n Hn Hwf f data pos Hs H Hl. cbn [payload_bytes wire_of qdes_field] in *.
      assert (E : leb128 n = le_bytes 1 n).
      { symmetry. apply leb128_unique. assert (Hx : n = 0 \/ n = 1) by lia.
        destruct Hx as [-> | -> ]; constructor; reflexivity. }
      rewrite E in *. rewrite (q_scalar_has data 1 0 n pos Hs) by
        (try exact H; change (pow256 1) with 256; lia).
      replace (n <? 2) with true by lia. now rewrite le_bytes_length.
    - (* byte *) intros p n Hn Hwf f data pos Hs H Hl. cbn [payload_bytes wire_of qdes_field] in *.
      assert (E : leb128 n = le_bytes 1 n).
      { symmetry. apply leb128_unique. constructor. exact Hn. }
      rewrite <- E in *. change n with (varint_number 1 false false n) in H.
      rewrite (des_varint_has c data 1 false false _ n pos eq_refl) by
        (try exact H; try discriminate; change (pow256 1) with 256; lia).
      reflexivity.
    - (* varint *) intros w sg zz p n Hn Hz Hwf f data pos Hs H Hl.
      cbn [payload_bytes wire_of qdes_field wfp] in *.
      now rewrite (des_varint_has c data w sg zz _ n pos Hwf Hn Hz H).
    - (* message *) intros k prior rs res _ IH Hwf f data pos Hs H Hl.
      cbn [payload_bytes wire_of qdes_field] in *.
      pose proof (has_at_le _ _ _ H) as HL. rewrite app_length in *.
      pose proof (leb128_nonempty (N.of_nat (length (records_bytes rs)))) as Hne.
      rewrite (q_nested_reads data _ (VSeq prior) (records_bytes rs) res pos Hs H);
        [now rewrite app_length|].
      apply q_fields_read; [exact IH|unfold zsmall in *; lia|lia].
    - (* fixes *) intros ct rv w prior l b Hl Hp Hr Hwf f data pos Hs H Hf.
      cbn [payload_bytes wire_of qdes_field wfp] in *. subst b.
      set (b := flat_map (fun x => le_bytes w (vnum x)) l) in *.
      apply has_at_app in H as [H1 H2]. pose proof (has_at_le _ _ _ H2) as HL.
      unfold qdes_scalars. change (negb (2 =? 2)) with false. cbv iota.
      rewrite (varintz_has z data pos (N.of_nat (length b))) by
        (try exact Hz8; try exact H1; apply (small_ltz z data); auto; lia).
      assert (Hb : length b = (length l * w)%nat) by apply flat_le_length.
      pose proof (wfw_pos w Hwf) as Hwp.
      destruct (Hroom _ Hr) as [Hc _].
      rewrite (q_room_bytes _ Hr). cbn [as_seq].
      assert (E2 : N.of_nat (length b) / N.of_nat w = N.of_nat (length l)).
      { rewrite Hb, Nat2N.inj_mul. apply N.div_mul. lia. }
      rewrite E2. replace (N.of_nat (length l) * N.of_nat w) with (N.of_nat (length b)) by lia.
      rewrite Hc, orb_true_r, Nat2N.id. cbn [unsized_ty des_ty sz_of as_seq].
      rewrite app_length, Nat.add_assoc. apply q_elems_has; auto.
      + apply forallb_forall. apply Forall_forall. apply vresize_forall.
        * cbn. pose proof (pow256_pos w). lia.
        * now apply Forall_forall, forallb_forall.
      + apply vresize_length.
    - (* fixes into a set *) intros ak rv w prior l b Hl Hr Hwf f data pos Hs H Hf.
      cbn [payload_bytes wire_of qdes_field wfp] in *. subst b.
      set (b := flat_map (fun x => le_bytes w (vnum x)) l) in *.
      apply has_at_app in H as [H1 H2]. pose proof (has_at_le _ _ _ H2) as HL.
      unfold qdes_scalars. change (negb (2 =? 2)) with false. cbv iota.
      rewrite (varintz_has z data pos (N.of_nat (length b))) by
        (try exact Hz8; try exact H1; apply (small_ltz z data); auto; lia).
      cbn [as_seq].
      assert (E1 : reserve_ok c (CSet ak rv) (N.of_nat (length b)) prior = true).
      { unfold reserve_ok, element_room in *. destruct rv; [|reflexivity].
        destruct (Hroom _ Hr) as [-> _]. now rewrite orb_true_r. }
      rewrite E1.
      replace (_ mod pow256 z) with (N.of_nat (pos + length (leb128 (N.of_nat (length b))) + length b)).
      2:{ unfold zsmall in Hs. rewrite N.mod_small; lia. }
      rewrite app_length, Nat.add_assoc.
      pose proof (wfw_pos w Hwf) as Hwp.
      apply (packed_loop_reads data _ (cinsert (CSet ak rv)) (fun x => le_bytes w (vnum x)) l); auto.
      + intros x p Hin Hx. rewrite forallb_forall in Hl. destruct (numok_vn w x (Hl x Hin)) as [Ex Hv].
        rewrite le_bytes_length. split; [now apply q_scalar_has|]. split; [exact Ex|lia].
      + unfold b in HL. pose proof (flat_le_length w l). nia.
    - (* fixes, one *) intros ck prior n Hn Hwf f data pos Hs H Hl.
      cbn [payload_bytes wire_of qdes_field] in *. unfold qdes_scalars.
      change (negb (5 =? 2)) with true. cbv iota.
      rewrite (q_scalar_has data 4 _ n pos Hs Hn H). now rewrite le_bytes_length.
    - intros ck prior n Hn Hwf f data pos Hs H Hl.
      cbn [payload_bytes wire_of qdes_field] in *. unfold qdes_scalars.
      change (negb (1 =? 2)) with true. cbv iota.
      rewrite (q_scalar_has data 8 _ n pos Hs Hn H). now rewrite le_bytes_length.
    - (* varints *) intros ck w sg zz prior l b Hl Hz Hr Hwf f data pos Hs H Hf.
      cbn [payload_bytes wire_of qdes_field wfp] in *. subst b.
      set (b := flat_map (fun x => leb128 (varint_number w sg zz (vnum x))) l) in *.
      apply has_at_app in H as [H1 H2]. pose proof (has_at_le _ _ _ H2) as HL.
      unfold qdes_scalars. change (negb (2 =? 2)) with false. cbv iota.
      rewrite (varintz_has z data pos (N.of_nat (length b))) by
        (try exact Hz8; try exact H1; apply (small_ltz z data); auto; lia).
      cbn [as_seq].
      assert (E1 : reserve_ok c ck (N.of_nat (length b)) prior = true).
      { unfold reserve_ok, element_room in *. destruct ck as [? [?|]|? [?|]]; try reflexivity;
        destruct (Hroom _ Hr) as [-> _]; now rewrite orb_true_r. }
      rewrite E1.
      replace (_ mod pow256 z) with (N.of_nat (pos + length (leb128 (N.of_nat (length b))) + length b)).
      2:{ unfold zsmall in Hs. rewrite N.mod_small; lia. }
      rewrite app_length, Nat.add_assoc.
      apply (packed_loop_reads data _ (cinsert ck)
               (fun x => leb128 (varint_number w sg zz (vnum x))) l); auto.
      + intros x p Hin Hx. rewrite forallb_forall in Hl. destruct (numok_vn w x (Hl x Hin)) as [Ex Hv].
        split; [now apply (des_varint_has c data w sg zz 0 (vnum x) p)|].
        split; [exact Ex|apply leb128_nonempty].
      + assert (length l <= length b)%nat; [|lia]. apply flat_ge. intros; apply leb128_nonempty.
    - (* varints, one *) intros ck w sg zz prior n Hn Hz Hwf f data pos Hs H Hl.
      cbn [payload_bytes wire_of qdes_field wfp] in *. unfold qdes_scalars.
      change (negb (0 =? 2)) with true. cbv iota.
      now rewrite (des_varint_has c data w sg zz _ n pos Hwf Hn Hz H).
    - (* strings *) intros ck contig w prior m b Hm Hr Hwf f data pos Hs H Hl.
      cbn [qdes_field wfp] in *. subst b.
      set (b := flat_map (fun x => le_bytes w (vnum x)) m) in *.
      assert (E : payload_bytes (if (w =? 1)%nat then WLen b else WCount (N.of_nat (length m)) b)
        = leb128 (N.of_nat (length m)) ++ b).
      { destruct (Nat.eqb_spec w 1) as [->|]; [|reflexivity].
        cbn [payload_bytes]. unfold b. rewrite flat_le_length, Nat.mul_1_r. reflexivity. }
      rewrite E in *. clear E. unfold b in *.
      now rewrite (q_str_has data _ contig w m pos Hs Hwf Hm Hr H).
    - (* messages *) intros ck k prior rs res _ IH Hwf f data pos Hs H Hl.
      cbn [payload_bytes wire_of qdes_field] in *.
      pose proof (has_at_le _ _ _ H) as HL. rewrite app_length in *.
      pose proof (leb128_nonempty (N.of_nat (length (records_bytes rs)))) as Hne.
      rewrite (q_nested_reads data _ (VSeq (m_dflt (P k))) (records_bytes rs) res pos Hs H);
        [cbn [add_object as_seq]; now rewrite app_length|].
      apply q_fields_read; [exact IH|unfold zsmall in *; lia|lia].
    - (* map entries *) intros ak kt vt prior rs res _ IH Hwf f data pos Hs H Hl.
      cbn [payload_bytes wire_of qdes_field] in *.
      pose proof (has_at_le _ _ _ H) as HL. rewrite app_length in *.
      pose proof (leb128_nonempty (N.of_nat (length (records_bytes rs)))) as Hne.
      rewrite (q_nested_reads data _ (VSeq [pdflt P kt; pdflt P vt]) (records_bytes rs) res pos Hs H);
        [cbn [add_object as_seq]; now rewrite app_length|].
      rewrite start_clear. cbn [as_seq].
      pose proof (records_length rs) as HL'.
      replace (S (length (records_bytes rs))) with
        (length rs + (S (length (records_bytes rs)) - length rs))%nat by lia.
      cbn [wfp] in Hwf.
      rewrite (IH ltac:(cbn [forallb]; now rewrite andb_true_r) eq_refl eq_refl f (records_bytes rs) 0%nat).
      + now rewrite q_field_loop_end.
      + unfold zsmall in *. lia.
      + split; [lia|apply window_all].
      + lia.
      + intros [|[|[|i]]] t wt p q Ht; cbn in Ht; try discriminate; now injection Ht as <-.
    - (* C array *) intros n w prior l b Hn Hl Hpn Hp Hwf f data pos Hs H Hf.
      cbn [payload_bytes wire_of qdes_field wfp des_ty as_seq] in *. subst b.
      apply andb_true_iff in Hwf as [_ Hwf].
      rewrite <- (andb_true_r (as_bytes c (scalar_ty w))). apply q_elems_has; auto. congruence.
    - (* no record *) intros nums ts vals _ _ _ f data pos fld _ _ _ _ n.
      cbn. now rewrite Nat.add_0_r.
    - (* a record *)
      intros nums ts vals i num t prior p v rs vals' Hnum Ht Hpr _ IHm _ IHs Hwf Hdis Hrange
        f data pos fld Hs H Hf Hfld n.
      unfold records_bytes in *. cbn [flat_map] in *. fold (records_bytes rs) in *.
      apply has_at_app in H as [H1 H2]. rewrite app_length in *.
      cbn [length Nat.add field_loop].
      unfold record_bytes in *. cbn [fst snd] in *. apply has_at_app in H1 as [H1 H3].
      rewrite app_length in *. pose proof (has_at_le _ _ _ H1) as HL.
      pose proof (leb128_nonempty (8 * num + wire_of p)) as Hne.
      replace (pos <? length data)%nat with true by lia.
      pose proof (wire_lt8 p) as Hw8.
      assert (Hn29 : 0 < num /\ num < 536870912).
      { rewrite forallb_forall in Hrange. specialize (Hrange num (nth_error_In _ _ Hnum)).
        change (2 ^ 29) with 536870912 in Hrange. lia. }
      rewrite (varint4_has data pos (8 * num + wire_of p)) by (try exact H1; change (pow256 4) with 4294967296; lia).
      assert (E1 : N.shiftr (8 * num + wire_of p) 3 = num).
      { rewrite N.shiftr_div_pow2. change (2 ^ 3) with 8. lia. }
      assert (E2 : N.land (8 * num + wire_of p) 7 = wire_of p).
      { change 7 with (N.ones 3). rewrite N.land_ones. change (2 ^ 3) with 8. lia. }
      rewrite E1, E2, (index_of_nth nums i num Hdis Hnum), Hpr, (Hfld i t _ _ _ Ht).
      rewrite IHm; [|rewrite forallb_forall in Hwf; apply Hwf; now apply nth_error_In in Ht
                    |exact Hs|exact H3|lia].
      rewrite <- Nat.add_assoc.
      rewrite (IHs Hwf Hdis Hrange f data _ fld Hs); [f_equal; lia| |lia|exact Hfld].
      rewrite ?Nat.add_assoc in *. exact H2.
  Qed.

  Theorem q_reads_message f k prior rs res :
    merges_message P room k prior rs res ->
    zsmall z (records_bytes rs) -> (length (records_bytes rs) < f)%nat ->
    qdes_fields z P c f k (records_bytes rs) prior = (ROk, res, length (records_bytes rs)).
  Proof. intros H. apply q_fields_read. now apply q_reader_merges. Qed.
End ReadNarrow.

Section SafeNarrow.
  Variables (z : nat) (P : penv) (ub : bool).
  Hypothesis (Hz8 : wfw z = true) (HP : wf_penv P).
  Local Notation psafe := (PbIn.psafe P ub).
  Local Notation fsafe := (PbIn.fsafe P ub).
  Local Notation packed_loop_safe := (PbIn.packed_loop_safe ub).
  Local Notation vec_scalar_safe := (PbIn.vec_scalar_safe ub).
  Local Notation array_scalar_safe := (PbIn.array_scalar_safe P ub).
  Local Notation des_protocol_safe := (PbIn.des_protocol_safe P ub).

  Lemma qdes_scalars_safe c data ck w resize fetch wt prior pos :
    small data -> wfw w = true -> wfsz (Some (dsize c)) = true ->
    ck_laws (numok w) ck -> (resize = true -> exists ct rv, ck = CSeq ct rv) ->
    nprog fetch (length data) (pow256 w) -> (pos <= length data)%nat ->
    pwt P prior (PFixes ck w) = true ->
    psafe (PFixes ck w) (length data) pos (qdes_scalars z c data ck w resize fetch wt prior pos).
  Proof.
    intros Hsm Hw Hds Hck Hrs Hf Hp Hpr.
    destruct prior as [|l| | | | | |]; try discriminate. cbn [as_seq].
    unfold qdes_scalars. cbn [as_seq]. destruct (negb (wt =? 2)).
    - specialize (Hf pos Hp). destruct (fetch pos) as [[r x] p].
      destruct r; try (exfalso; exact Hf); [|subst p; cbn [PbIn.psafe]; split; [lia|]; auto].
      destruct Hf as [F1 F2]. cbn [PbIn.psafe]. split; [lia|]. split; [|auto].
      cbn [pwt]. apply cinsert_ok; auto. cbn. lia.
    - pose proof (varint_prog z false 0 data Hz8 pos Hp) as HV.
      destruct (des_varint z false 0 data pos) as [[r len] p].
      destruct r; try (exfalso; exact HV); [|subst p; cbn [PbIn.psafe]; split; [lia|]; auto].
      destruct HV as [HV _].
      destruct resize.
      + destruct (Hrs eq_refl) as (ct & rv & ->).
        destruct (match alim c with Some lim => lim <? len | None => false end);
          [cbn [PbIn.psafe]; split; [lia|]; auto|].
        destruct ((_ <=? _) || _); [|cbn [PbIn.psafe]; split; [lia|]; auto].
        cbn [unsized_ty].
        assert (HS : strok w (VSeq (vresize (VN 0) (N.to_nat (len / N.of_nat w)) l)) = true).
        { cbn [strok]. rewrite forallb_forall. apply Forall_forall. apply vresize_forall.
          - cbn. pose proof (pow256_pos w). lia.
          - cbn [pwt] in Hpr. apply andb_true_iff in Hpr as [Hpr _].
            now apply Forall_forall, forallb_forall. }
        pose proof (vec_scalar_safe c data (Some SzNone) ct w (fun _ p pos => (RUB, p, pos))
          Hsm Hw Hds eq_refl _ p ltac:(lia) HS) as S.
        destruct (des_ty _ _ _ _ _ _ _) as [[r v] p']. destruct S as (S1 & S2 & S3).
        destruct v; try discriminate. cbn [PbIn.psafe]. split; [lia|]. split; [|exact S3].
        cbn [pwt ckok]. rewrite andb_true_r. exact S2.
      + destruct (reserve_ok c ck len l); [|cbn [PbIn.psafe]; split; [lia|]; auto].
        pose proof (packed_loop_safe fetch (cinsert ck) ((len + N.of_nat p) mod pow256 z) (length data)
          (fun l => forallb (numok w) l && ckok ck l) w Hf
          (fun l x => cinsert_ok (numok w) ck l x Hck)
          (S (length data)) l p ltac:(lia) ltac:(lia) Hpr) as S.
        destruct (packed_loop _ _ _ _ _ p) as [[r v] p']. destruct v; try contradiction.
        destruct S as (S1 & S2 & S3). cbn [PbIn.psafe]. split; [lia|]. auto.
  Qed.

  Variable c : cfg.
  Hypothesis Hds : wfsz (Some (dsize c)) = true.

  Section Field.
    Variables (rec : nat -> list byte -> list val -> res * list val * nat) (L : nat).
    Hypothesis Hrec : forall k sub vals, (length sub < L)%nat -> small sub ->
      pwt P (VSeq vals) (PMsg k) = true ->
      fsafe (map snd (m_fields (P k))) (length sub) (rec k sub vals).

    Lemma qdes_field_safe t :
      wfp t = true -> ub || no_bool t = true -> pcmp_ok P t ->
      forall data, (length data <= L)%nat -> small data ->
      forall wt prior pos, (0 < pos <= length data)%nat -> pwt P prior t = true ->
      psafe t (length data) pos (qdes_field z P c rec t data wt prior pos).
    Proof.
      induction t as [w| | |w sg zz| |k|ck w|ck w sg zz|ck contig w|ck k|ak kt IHk vt IHv|m w];
        cbn [wfp no_bool pcmp_ok]; intros Hwf Hub Hc data HL Hsm wt prior pos Hp Hpr;
        destruct prior as [n|l| | | | | |]; try discriminate; cbn [qdes_field vnum].
      - pose proof (scalar_prog c w n data ltac:(lia) Hsm pos ltac:(lia)) as S.
        pose proof (des_scalar_eq c data w n pos Hsm ltac:(lia)) as E.
        destruct (des_scalar c data w n pos) as [[r x] p]. cbn [nres PbIn.psafe].
        destruct r; try contradiction.
        + destruct S as [S1 S2]. split; [lia|]. cbn [pwt]. split; [lia|auto].
        + destruct (_ <=? _)%nat; inversion E; subst. split; [lia|]. auto.
      - pose proof (scalar_prog c 1 0 data ltac:(lia) Hsm pos ltac:(lia)) as S.
        destruct (des_scalar c data 1 0 pos) as [[r x] p].
        destruct r; try contradiction.
        + destruct S as [S1 S2]. destruct (x <? 2) eqn:E; cbn [PbIn.psafe]; split; try lia; split;
            cbn [pwt]; auto.
          split; [|discriminate]. intros _. rewrite orb_false_r in Hub. exact Hub.
        + subst p. cbn [PbIn.psafe]. split; [lia|]. auto.
      - pose proof (varint_prog 1 false n data eq_refl pos ltac:(lia)) as S.
        pose proof (des_varint_eq 1 false n data pos eq_refl ltac:(lia)) as E.
        destruct (des_varint 1 false n data pos) as [[r x] p]. cbn [nres PbIn.psafe].
        destruct r; try contradiction.
        + destruct S as [S1 S2]. split; [lia|]. cbn [pwt].
          change (pow256 1) with 256 in S2. split; [lia|auto].
        + destruct (leb_value _) as [[??]|]; inversion E; subst. split; [lia|]. auto.
      - pose proof (varint_prog w zz n data Hwf pos ltac:(lia)) as S.
        pose proof (des_varint_eq w zz n data pos Hwf ltac:(lia)) as E.
        destruct (des_varint w zz n data pos) as [[r x] p]. cbn [nres PbIn.psafe].
        destruct r; try contradiction.
        + destruct S as [S1 S2]. split; [lia|]. cbn [pwt]. split; [lia|auto].
        + destruct (leb_value _) as [[??]|]; inversion E; subst. split; [lia|]. auto.
      - cbn [PbIn.psafe]. split; [lia|]. auto.
      - cbn [pwt] in Hpr. rewrite forall2b_snd in Hpr.
        pose proof (des_protocol_safe c (dsize c) data (rec k) (map snd (m_fields (P k))) l pos
          Hds Hsm ltac:(lia) Hpr) as S.
        assert (S' := S ltac:(intros sub vals Hs Hv; apply Hrec;
          [lia|unfold small in *; lia|cbn [pwt]; now rewrite forall2b_snd])). clear S.
        destruct (des_protocol _ _ _ _ _ _) as [[r v] p]. destruct v; try contradiction.
        destruct S' as (S1 & S2 & S3). cbn [PbIn.psafe]. split; [lia|]. split; [|exact S3].
        cbn [pwt]. now rewrite forall2b_snd.
      - apply qdes_scalars_safe; auto; try lia.
        + destruct ck; [eauto|discriminate].
        + apply scalar_prog; [pose proof (wfw_pos _ Hwf); lia|exact Hsm].
      - pose proof (qdes_scalars_safe c data ck w false (des_varint w zz 0 data) wt (VSeq l) pos
          Hsm Hwf Hds Hc ltac:(discriminate) (varint_prog w zz 0 data Hwf) ltac:(lia) Hpr) as S.
        destruct (qdes_scalars _ _ _ _ _ _ _ _ _ _) as [[r v] p]. cbn [PbIn.psafe] in *.
        destruct S as (S1 & S2 & S3). split; [exact S1|]. split; [|exact S3]. now destruct v.
      - pose proof (vec_scalar_safe c data None contig w (fun _ p pos => (RUB, p, pos))
          Hsm Hwf Hds eq_refl (VSeq []) pos ltac:(lia) eq_refl) as S.
        destruct (des_ty _ _ _ _ _ _ _) as [[r v] p]. destruct S as (S1 & S2 & S3).
        unfold add_object. destruct r; cbn [PbIn.psafe as_seq]; (split; [lia|]); auto.
        split; [|exact S3]. cbn [pwt]. apply (cinsert_ok (strok w)); auto.
      - assert (Hd : pwt P (VSeq (m_dflt (P k))) (PMsg k) = true)
          by apply (pwt_pdflt P (PMsg k) HP).
        cbn [pwt] in Hd. rewrite forall2b_snd in Hd.
        pose proof (des_protocol_safe c (dsize c) data (rec k) (map snd (m_fields (P k)))
          (m_dflt (P k)) pos Hds Hsm ltac:(lia) Hd) as S.
        assert (S' := S ltac:(intros sub vals Hs Hv; apply Hrec;
          [lia|unfold small in *; lia|cbn [pwt]; now rewrite forall2b_snd])). clear S.
        destruct (des_protocol _ _ _ _ _ _) as [[r v] p]. destruct v as [|vs| | | | | |]; try contradiction.
        destruct S' as (S1 & S2 & S3).
        unfold add_object. destruct r; cbn [PbIn.psafe as_seq]; (split; [lia|]); auto.
        split; [|exact S3]. rewrite pwt_msgs in *. apply cinsert_ok; auto.
        cbn [pwt]. now rewrite forall2b_snd.
      - apply andb_true_iff in Hwf as [Hwk Hwv]. destruct Hc as (Hc & Hck & Hcv).
        assert (Hubk : ub || no_bool kt = true /\ ub || no_bool vt = true)
          by (destruct ub, (no_bool kt), (no_bool vt); auto).
        destruct Hubk as [Hubk Hubv].
        assert (Hd : forall2b (fun x t => pwt P x t) [pdflt P kt; pdflt P vt] [kt; vt] = true)
          by (cbn [forall2b]; now rewrite !pwt_pdflt).
        pose proof (des_protocol_safe c (dsize c) data
          (fun sub vals =>
             field_loop sub [1; 2]
               (fun i => match i with O => qdes_field z P c rec kt sub | S _ => qdes_field z P c rec vt sub end)
               (S (length sub)) (clear_members [kt; vt] vals) 0)
          [kt; vt] _ pos Hds Hsm ltac:(lia) Hd) as S.
        assert (S' := S ltac:(
          intros sub vals Hs Hv; apply field_loop_safe;
          [ intros [|[|[|i]]] n; cbn; congruence
          | intros [|[|[|i]]] t wt' prior pos' Ht Hw' Hp'; cbn in Ht; try discriminate;
            inversion Ht; subst t; [apply IHk|apply IHv]; auto; try lia;
            unfold small in *; lia
          | lia | lia | now apply clear_members_wt ])). clear S.
        destruct (des_protocol _ _ _ _ _ _) as [[r v] p]. destruct v as [|vs| | | | | |]; try contradiction.
        destruct S' as (S1 & S2 & S3).
        unfold add_object. destruct r; cbn [PbIn.psafe as_seq]; (split; [lia|]); auto.
        split; [|exact S3]. cbn [pwt]. apply (assoc_insert_ok (entry_ok P kt vt)); auto.
        destruct vs as [|a [|b [|? ?]]]; cbn [forall2b] in S2; try discriminate.
        + rewrite andb_false_r in S2. discriminate.
        + cbn. now rewrite andb_true_r in S2.
        + rewrite !andb_false_r in S2. discriminate.
      - apply andb_true_iff in Hwf as [Hm Hw]. apply Nat.ltb_lt in Hm.
        apply array_scalar_safe; auto; lia.
    Qed.
  End Field.

  Hypothesis Hub : forall k, forallb (fun fd => ub || no_bool (snd fd)) (m_fields (P k)) = true.
  Hypothesis Hcmp : pcmp_env P.

  Lemma qdes_fields_safe fuel k data vals :
    small data -> (length data < fuel)%nat -> pwt P (VSeq vals) (PMsg k) = true ->
    fsafe (map snd (m_fields (P k))) (length data) (qdes_fields z P c fuel k data vals).
  Proof.
    revert k data vals. induction fuel as [|f IH]; intros k data vals Hsm Hlt Hw; [lia|].
    cbn [qdes_fields]. cbn [pwt] in Hw. rewrite forall2b_snd in Hw.
    apply field_loop_safe; [| |lia|lia|now apply clear_members_wt].
    - intros i n Hn. apply numbers_from_nth in Hn as (fd & Hn & _).
      erewrite map_nth_error by eassumption. discriminate.
    - intros i t wt prior pos Ht Hpr Hp. destruct (nth_error (m_fields (P k)) i) as [fd|] eqn:E.
      2:{ apply nth_error_None in E. assert (nth_error (map snd (m_fields (P k))) i <> None) as D
            by congruence. apply nth_error_Some in D. rewrite map_length in D.
          exfalso. exact (Nat.lt_irrefl _ (Nat.lt_le_trans _ _ _ D E)). }
      rewrite (map_nth_error snd _ _ E) in Ht.
      injection Ht as <-. pose proof (nth_error_In _ _ E) as Hin.
      apply (qdes_field_safe (qdes_fields z P c f) (length data)); auto.
      + intros k' sub vals' Hl Hs Hv. apply IH; auto. lia.
      + specialize (HP k). unfold wf_pmsg in HP. rewrite !andb_true_iff in HP.
        destruct HP as [[[[[H _] _] _] _] _]. rewrite forallb_forall in H. now apply H.
      + specialize (Hub k). rewrite forallb_forall in Hub. now apply Hub.
      + specialize (Hcmp k). rewrite Forall_forall in Hcmp. now apply Hcmp.
  Qed.
End SafeNarrow.

Theorem qdes_pb_item_safe z P c ub data fuel s k prior pos :
  wfw z = true -> wf_penv P -> pcmp_env P ->
  (forall k, forallb (fun fd => ub || no_bool (snd fd)) (m_fields (P k)) = true) ->
  wfsz (Some s) = true -> small data -> (pos <= length data)%nat ->
  (length data - pos < fuel)%nat -> pwt P prior (PMsg k) = true ->
  let '(r, v, p) := qdes_pb_item z P c data fuel s k prior pos in
  (pos <= p <= length data)%nat /\ pwt P v (PMsg k) = true /\ (r = RUB -> ub = true) /\ r <> RStack.
Proof.
  intros Hz8 HP Hc Hub Hs Hsm Hp Hfu Hw.
  destruct prior as [|l| | | | | |]; try discriminate. cbn [pwt] in Hw. rewrite forall2b_snd in Hw.
  pose proof (des_protocol_safe P ub c s data (qdes_fields z P (qb_icfg z c) fuel k) _ l pos
    Hs Hsm Hp Hw) as S.
  assert (S' := S ltac:(intros sub vals Hl Hv; apply qdes_fields_safe; auto;
    [unfold small in *; lia|lia|cbn [pwt]; now rewrite forall2b_snd])).
  unfold qdes_pb_item. destruct (des_protocol _ _ _ _ _ _) as [[r v] p].
  destruct v; try contradiction. destruct S' as (S1 & S2 & S3 & S4).
  split; [lia|]. split; [cbn [pwt]; now rewrite forall2b_snd|]. split; [exact S3|].
  intro E. now apply S4 in E.
Qed.
