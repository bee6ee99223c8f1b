(** C63: a damaged protobuf message: the error, the position and the members after it. *)

From Coq Require Import List NArith ZArith Lia Bool Arith.
From Coq Require Import ZifyBool ZifyNat ZifyN.
From Verif Require Import Base.Bytes Model.Types Model.Machine Model.Varint Model.Out Model.In
  Model.Loops Model.Protocol Model.Pb
  Spec.Leb128 Spec.Wire Spec.PbWire Spec.PbMerge Spec.PbBreak
  Proofs.VarintP Proofs.OutP Proofs.InBase Proofs.InSafe Proofs.InRound Proofs.InFuel Proofs.ProtoP
  Proofs.PbOut Proofs.PbParse Proofs.PbIn Proofs.PbRead
  Thm.Demo Thm.Output Thm.Protocol Thm.Pb Thm.PbInput.
Import ListNotations.
Local Open Scope N_scope.

Ltac Zify.zify_post_hook ::= Z.div_mod_to_equations.

(** From [pos] on, [data] is [b]. *)
Definition ends_with (data : list byte) (pos : nat) (b : list byte) : Prop :=
  (pos <= length data)%nat /\ skipn pos data = b.

Lemma ends_with_length data pos b : ends_with data pos b -> length data = (pos + length b)%nat.
Proof. intros [H <-]. rewrite skipn_length. lia. Qed.

Lemma ends_with_app data pos x b :
  ends_with data pos (x ++ b) -> has_at data pos x /\ ends_with data (pos + length x) b.
Proof.
  intro H. pose proof (ends_with_length _ _ _ H) as HL. rewrite app_length in HL.
  destruct H as [H1 H2]. split; split; try lia.
  - unfold window. rewrite H2. rewrite firstn_app, firstn_all, Nat.sub_diag. apply app_nil_r.
  - rewrite <- skipn_skipn, H2, skipn_app, skipn_all, Nat.sub_diag. reflexivity.
Qed.

Lemma no_varint_reads w zz prior data pos b e :
  wfw w = true -> ends_with data pos b -> no_varint w b e ->
  des_varint w zz prior data pos = (RErr e, prior, pos).
Proof.
  intros Hw He Hn. pose proof (ends_with_length _ _ _ He) as HL. destruct He as [H1 H2].
  rewrite des_varint_eq by assumption. rewrite H2.
  replace (length data - pos)%nat with (length b) by lia.
  assert (E : varint_max_size w = ((8 * w + 6) / 7)%nat)
    by (apply wfw_cases in Hw as [-> | [-> | [-> | -> ]]]; reflexivity).
  rewrite E. destruct Hn as [Hv Hl|Hv Hl].
  - rewrite firstn_all2 by lia. rewrite Hv. replace (_ <? _)%nat with true by lia. reflexivity.
  - rewrite Hv. replace (_ <? _)%nat with false by lia. reflexivity.
Qed.

Lemma short_scalar c w prior data pos b :
  small data -> ends_with data pos b -> (length b < w)%nat ->
  des_scalar c data w prior pos = (RErr result_out_of_range, prior, pos).
Proof.
  intros Hs He Hl. pose proof (ends_with_length _ _ _ He) as HL. destruct He as [H1 _].
  rewrite des_scalar_eq by assumption. replace (_ <=? _)%nat with false by lia. reflexivity.
Qed.

(** A packed run whose next element cannot be read. *)
Lemma packed_breaks data fetch ins (e : val -> list byte) stop er l :
  (forall x pos, In x l -> has_at data pos (e x) ->
     fetch pos = (ROk, vnum x, (pos + length (e x))%nat) /\ x = VN (vnum x) /\ (0 < length (e x))%nat) ->
  forall n acc pos b,
    ends_with data pos (flat_map e l ++ b) -> (length l < n)%nat ->
    N.of_nat (pos + length (flat_map e l)) < stop ->
    (forall p, ends_with data p b -> fetch p = (RErr er, 0, p)) ->
    packed_loop fetch ins stop n acc pos
    = (RErr er, VSeq (fold_left ins l acc), (pos + length (flat_map e l))%nat).
Proof.
  induction l as [|x l IH]; intros Hf n acc pos b H Hn Hstop Hb.
  - cbn [flat_map length fold_left app] in *. rewrite Nat.add_0_r in *.
    destruct n; [lia|]; cbn [packed_loop]. replace (_ <? _) with true by lia.
    now rewrite (Hb _ H).
  - cbn [flat_map fold_left length] in *. rewrite <- app_assoc in H.
    apply ends_with_app in H as [H1 H2]. rewrite app_length in *.
    destruct n as [|n]; [lia|]. cbn [packed_loop].
    destruct (Hf x pos (or_introl eq_refl) H1) as (E & Ex & Hp).
    replace (_ <? _) with true by lia. rewrite E, <- Ex.
    rewrite (IH (fun y p Hy => Hf y p (or_intror Hy)) n _ _ b H2); auto; try lia.
    f_equal. lia.
Qed.

Section Breaks.
  Variables (P : penv) (c : cfg) (room : N -> bool).
  Hypothesis (HP : wf_penv P) (Hlo : little_out c) (Hd : dsize c = SzVar 8).
  Hypothesis Hroom : forall n, room n = true ->
    can_alloc c n = true /\ match alim c with Some lim => n <= lim | None => True end.

  Definition field_breaks (t : pty) (prior : val) (wt : N) (b : list byte) (e : errc) (v : val)
    (q : nat) : Prop :=
    wfp t = true -> forall f data pos, N.of_nat (length data) < 2 ^ 63 -> ends_with data pos b ->
    (length b <= f)%nat ->
    des_field P c (des_fields P c f) t data wt prior pos = (RErr e, v, (pos + q)%nat).

  Definition members_break (nums : list N) (ts : list pty) (vals : list val) (b : list byte)
    (e : errc) (vals' : list val) (p : nat) : Prop :=
    forallb wfp ts = true -> distinct nums = true ->
    forallb (fun n => (0 <? n) && (n <? 2 ^ 29)) nums = true ->
    forall f data pos fld, N.of_nat (length data) < 2 ^ 63 -> ends_with data pos b ->
    (length b <= f)%nat ->
    (forall i t wt prior pos, nth_error ts i = Some t ->
       fld i wt prior pos = des_field P c (des_fields P c f) t data wt prior pos) ->
    forall n, (length b < n)%nat ->
      field_loop data nums fld n vals pos = (RErr e, vals', (pos + p)%nat).

  Lemma small63 (data : list byte) : N.of_nat (length data) < 2 ^ 63 -> small data.
  Proof. unfold small. change (2 ^ 63) with 9223372036854775808.
    change (2 ^ 64) with 18446744073709551616. lia. Qed.

  Lemma fields_break f k prior b e vals p :
    members_break (msg_numbers P k) (msg_types P k) (start (msg_types P k) prior) b e vals p ->
    N.of_nat (length b) < 2 ^ 63 -> (length b < f)%nat ->
    des_fields P c f k b prior = (RErr e, vals, p).
  Proof.
    intros H Hs Hf. destruct f as [|f]; [lia|]. cbn [des_fields].
    destruct (message_facts P HP k) as (E & H1 & H2 & H3).
    rewrite start_clear. fold (msg_types P k). rewrite <- E.
    rewrite (H H1 H2 H3 f b 0%nat); auto; try lia.
    - split; [lia|reflexivity].
    - intros i t wt pr pos Ht. unfold msg_types in Ht.
      destruct (nth_error (m_fields (P k)) i) as [fd|] eqn:Ei.
      + rewrite (map_nth_error snd _ _ Ei) in Ht. now injection Ht as <-.
      + exfalso. apply nth_error_None in Ei.
        assert (D : nth_error (map snd (m_fields (P k))) i <> None) by congruence.
        apply nth_error_Some in D. rewrite map_length in D.
        exact (Nat.lt_irrefl _ (Nat.lt_le_trans _ _ _ D Ei)).
  Qed.

  Lemma nested_breaks data fields prior n sub tail e res p pos :
    small data -> n < 2 ^ 64 -> ends_with data pos (leb128 n ++ sub ++ tail) -> content n sub tail ->
    fields sub (as_seq prior) = (RErr e, res, p) ->
    des_protocol c data (dsize c) (des_nested data fields) prior pos
    = (RErr e, VSeq res, (pos + (length (leb128 n) + p))%nat).
  Proof.
    intros Hs Hn H Hc Hf. unfold des_protocol. rewrite Hd. cbn [des_size].
    apply ends_with_app in H as [H1 H2].
    rewrite (varint8_has data pos n Hn H1). pose proof (ends_with_length _ _ _ H2) as HL.
    rewrite app_length in HL. destruct H2 as [H2 H3].
    unfold des_nested, rest_of. replace (_ <=? _)%nat with true by lia. rewrite H3.
    assert (E : firstn (N.to_nat (N.min n (N.of_nat (length (sub ++ tail))))) (sub ++ tail) = sub).
    { rewrite app_length. destruct Hc as [Hc|[Hc ->]].
      - replace (N.to_nat _) with (length sub) by lia.
        rewrite firstn_app, firstn_all, Nat.sub_diag. apply app_nil_r.
      - rewrite app_nil_r. apply firstn_all2. cbn [length]. lia. }
    rewrite E, Hf. f_equal. lia.
  Qed.

  Lemma reader_breaks :
    (forall t prior wt b e v q, breaks_field P room (host_le c) t prior wt b e v q ->
       field_breaks t prior wt b e v q) /\
    (forall nums ts vals b e vals' p, breaks P room (host_le c) nums ts vals b e vals' p ->
       members_break nums ts vals b e vals' p).
  Proof.
    apply breaks_field_breaks_ind.
    - (* fixed *) intros w n wt b Hb Hwf f data pos Hs H Hl. apply small63 in Hs.
      cbn [des_field vnum]. rewrite (short_scalar c w n data pos b Hs H Hb).
      cbn [nres]. now rewrite Nat.add_0_r.
    - (* bool *) intros v wt Hwf f data pos Hs H Hl. apply small63 in Hs.
      cbn [des_field]. rewrite (short_scalar c 1 0 data pos [] Hs H) by (cbn; lia).
      now rewrite Nat.add_0_r.
    - (* byte *) intros n wt b e Hn Hwf f data pos Hs H Hl.
      cbn [des_field vnum]. rewrite (no_varint_reads 1 false n data pos b e eq_refl H Hn).
      cbn [nres]. now rewrite Nat.add_0_r.
    - (* varint *) intros w sg zz n wt b e Hn Hwf f data pos Hs H Hl.
      cbn [des_field vnum]. rewrite (no_varint_reads w zz n data pos b e Hwf H Hn).
      cbn [nres]. now rewrite Nat.add_0_r.
    - (* length of a delimited record *) intros t l wt b e Ht Hn Hwf f data pos Hs H Hl.
      pose proof (no_varint_reads 8 false 0 data pos b e eq_refl H Hn) as E.
      destruct t; try discriminate; cbn [des_field des_ty sz_of]; unfold des_protocol;
        rewrite Hd; cbn [des_size]; rewrite E; cbn [add_object]; now rewrite Nat.add_0_r.
    - (* embedded message *) intros k prior wt n sub tail e vals p Hn Hc _ IH Hwf f data pos Hs H Hl.
      cbn [des_field]. pose proof (ends_with_length _ _ _ H) as HL. rewrite !app_length in *.
      pose proof (leb128_nonempty n) as Hne.
      apply (nested_breaks data _ (VSeq prior) n sub tail); auto using small63.
      apply fields_break; [exact IH|lia|lia].
    - (* repeated message *)
      intros ck k prior wt n sub tail e vals p Hn Hc _ IH Hwf f data pos Hs H Hl.
      cbn [des_field]. pose proof (ends_with_length _ _ _ H) as HL. rewrite !app_length in *.
      pose proof (leb128_nonempty n) as Hne.
      rewrite (nested_breaks data _ (VSeq (m_dflt (P k))) n sub tail e vals p); auto using small63.
      apply fields_break; [exact IH|lia|lia].
    - (* map entry *)
      intros ak kt vt prior wt n sub tail e vals p Hn Hc _ IH Hwf f data pos Hs H Hl.
      cbn [des_field]. pose proof (ends_with_length _ _ _ H) as HL. rewrite !app_length in *.
      pose proof (leb128_nonempty n) as Hne.
      rewrite (nested_breaks data _ (VSeq [pdflt P kt; pdflt P vt]) n sub tail e vals p);
        auto using small63.
      rewrite start_clear. cbn [as_seq wfp] in *.
      rewrite (IH ltac:(cbn [forallb]; now rewrite andb_true_r) eq_refl eq_refl f sub 0%nat);
        auto; try lia.
      + split; [lia|reflexivity].
      + intros [|[|[|i]]] t wt' p' q Ht; cbn in Ht; try discriminate; now injection Ht as <-.
    - (* string *) intros ck prior wt n b Hn Hr Hb Hwf f data pos Hs H Hl. apply small63 in Hs.
      cbn [des_field des_ty sz_of]. rewrite Hd. cbn [des_size].
      apply ends_with_app in H as [H1 H2]. rewrite (varint8_has data pos n Hn H1).
      pose proof (ends_with_length _ _ _ H2) as HL.
      unfold vec_resize, over_limit, csizeof, scalar_ty. cbn [bs bsize as_seq Nat.eqb].
      replace (match alim c with Some l => l / N.of_nat 1 <? n | None => false end) with false.
      2:{ symmetry. destruct (Hroom n Hr) as [_ Hx]. revert Hx. case (alim c); [|reflexivity].
          intros lim Hx. change (N.of_nat 1) with 1. rewrite N.div_1_r. lia. }
      replace (n * N.of_nat 1) with n by lia. destruct (Hroom n Hr) as [-> _]. rewrite orb_true_r.
      unfold des_elems, as_bytes. cbn [eibs orb andb].
      rewrite des_bytes_eq by (auto; lia). rewrite vresize_length. cbn [bsize].
      rewrite Nat.mul_1_r. replace (_ =? 0)%nat with false by lia.
      replace (_ <=? _)%nat with false by lia. cbn [seq_res add_object]. reflexivity.
    - (* one fixed *) intros ck w prior wt b Hwt Hb Hwf f data pos Hs H Hl. apply small63 in Hs.
      cbn [des_field]. unfold des_scalars. replace (wt =? 2) with false by lia. cbn [negb].
      rewrite (short_scalar c w 0 data pos b Hs H Hb). cbn [as_seq]. now rewrite Nat.add_0_r.
    - (* one varint *) intros ck w sg zz prior wt b e Hwt Hn Hwf f data pos Hs H Hl.
      cbn [des_field wfp] in *. unfold des_scalars. replace (wt =? 2) with false by lia. cbn [negb].
      rewrite (no_varint_reads w zz 0 data pos b e Hwf H Hn). cbn [as_seq]. now rewrite Nat.add_0_r.
    - (* length of a packed record *)
      intros t ck w sg zz prior b e Ht Hn Hwf f data pos Hs H Hl.
      pose proof (no_varint_reads 8 false 0 data pos b e eq_refl H Hn) as E.
      destruct Ht as [-> | ->]; cbn [des_field]; unfold des_scalars;
        change (negb (2 =? 2)) with false; cbv iota; rewrite E; cbn [as_seq];
        now rewrite Nat.add_0_r.
    - (* packed fixed *) intros rv w prior m b Hnat Hn Hr Hb Hwf f data pos Hs H Hl.
      apply small63 in Hs. cbn [des_field wfp] in *. unfold des_scalars.
      change (negb (2 =? 2)) with false. cbv iota.
      apply ends_with_app in H as [H1 H2]. pose proof (ends_with_length _ _ _ H2) as HL.
      change (2 ^ 63) with 9223372036854775808 in Hn.
      rewrite (varint8_has data pos (N.of_nat (m * w))) by
        (try exact H1; change (pow256 8) with 18446744073709551616; lia).
      rewrite (room_bytes c room Hroom _ Hr). cbn [as_seq].
      pose proof (wfw_pos w Hwf) as Hwp.
      assert (E2 : N.of_nat (m * w) / N.of_nat w = N.of_nat m).
      { rewrite Nat2N.inj_mul. apply N.div_mul. lia. }
      rewrite E2. replace (N.of_nat m * N.of_nat w) with (N.of_nat (m * w)) by lia.
      destruct (Hroom _ Hr) as [-> _]. rewrite orb_true_r, Nat2N.id.
      cbn [unsized_ty des_ty sz_of as_seq]. unfold des_elems, as_bytes, scalar_ty.
      replace (negb (swap c)) with true
        by (unfold little_out in Hlo; rewrite Hnat in Hlo; now destruct (swap c)).
      cbn [bs bsize]. rewrite andb_true_r, orb_true_r.
      rewrite des_bytes_eq by (auto; lia). rewrite vresize_length. cbn [bsize].
      replace (_ =? 0)%nat with false by lia.
      replace (_ <=? _)%nat with false by lia. cbn [seq_res]. reflexivity.
    - (* packed varints *)
      intros ck w sg zz prior n l b e packed Hl Hz Hn Hr Hp Hb Hwf f data pos Hs H Hf.
      cbn [des_field wfp] in *. unfold des_scalars.
      change (negb (2 =? 2)) with false. cbv iota.
      apply ends_with_app in H as [H1 H2]. pose proof (ends_with_length _ _ _ H2) as HL.
      change (2 ^ 63) with 9223372036854775808 in *.
      rewrite (varint8_has data pos n) by
        (try exact H1; change (pow256 8) with 18446744073709551616; lia).
      cbn [as_seq].
      assert (E1 : reserve_ok c ck n prior = true).
      { unfold reserve_ok, element_room in *. destruct ck as [? [?|]|? [?|]]; try reflexivity;
        destruct (Hroom _ Hr) as [-> _]; now rewrite orb_true_r. }
      rewrite E1. unfold packed in *. rewrite app_length in HL.
      rewrite (packed_breaks data _ (cinsert ck)
               (fun x => leb128 (varint_number w sg zz (vnum x))) _ e l) with (b := b); auto.
      + f_equal. lia.
      + intros x p Hin Hx. rewrite forallb_forall in Hl. destruct (numok_vn w x (Hl x Hin)) as [Ex Hv].
        split; [now apply (des_varint_has c data w sg zz 0 (vnum x) p)|].
        split; [exact Ex|apply leb128_nonempty].
      + assert (length l <= length (flat_map (fun x => leb128 (varint_number w sg zz (vnum x))) l))%nat;
          [|lia]. apply flat_ge. intros; apply leb128_nonempty.
      + unfold wadd, two64. rewrite N.mod_small; lia.
      + intros p Hp'. now apply (no_varint_reads w zz 0 data p b e Hwf Hp').
    - (* C array *) intros n w prior wt b Hnat Hn Hb Hwf f data pos Hs H Hf.
      pose proof (ends_with_length _ _ _ H) as HL. pose proof (small63 _ Hs) as Hsm.
      cbn [des_field wfp des_ty as_seq] in *. apply andb_true_iff in Hwf as [Hn0 Hwf].
      pose proof (wfw_pos w Hwf) as Hwp. apply Nat.ltb_lt in Hn0, Hwp.
      unfold des_elems, as_bytes, scalar_ty.
      replace (negb (swap c)) with true
        by (unfold little_out in Hlo; rewrite Hnat in Hlo; now destruct (swap c)).
      cbn [bs bsize]. rewrite orb_true_r. rewrite des_bytes_eq by (auto; lia). cbn [bsize].
      replace (_ =? 0)%nat with false by lia.
      replace (_ <=? _)%nat with false by lia. cbn [seq_res]. now rewrite Nat.add_0_r.
    - (* broken tag *) intros nums ts vals b e Hb Hn _ _ _ f data pos fld Hs H Hl _ n Hlt.
      destruct n as [|n]; [lia|]. cbn [field_loop].
      pose proof (ends_with_length _ _ _ H) as HL.
      assert (0 < length b)%nat by (destruct b; [congruence|cbn; lia]).
      replace (_ <? _)%nat with true by lia.
      rewrite (no_varint_reads 4 false 0 data pos b e eq_refl H Hn). now rewrite Nat.add_0_r.
    - (* number 0 *) intros nums ts vals wt b Hwt _ _ Hrange f data pos fld Hs H Hl _ n Hlt.
      destruct n as [|n]; [lia|]. cbn [field_loop].
      pose proof (ends_with_length _ _ _ H) as HL. rewrite app_length in HL.
      pose proof (leb128_nonempty wt) as Hne.
      apply ends_with_app in H as [H1 H2].
      replace (_ <? _)%nat with true by lia.
      rewrite (varint4_has data pos wt) by (try exact H1; change (pow256 4) with 4294967296; lia).
      replace (N.shiftr wt 3) with 0.
      2:{ rewrite N.shiftr_div_pow2. change (2 ^ 3) with 8. now rewrite N.div_small. }
      rewrite index_of_none; [reflexivity|]. intro Hin. rewrite forallb_forall in Hrange.
      specialize (Hrange 0 Hin). discriminate.
    - (* broken member *)
      intros nums ts vals i num t prior wt b e v q Hnum Ht Hpr Hw8 _ IH Hwf Hdis Hrange
        f data pos fld Hs H Hl Hfld n Hlt.
      destruct n as [|n]; [lia|]. cbn [field_loop].
      pose proof (ends_with_length _ _ _ H) as HL. rewrite app_length in *.
      pose proof (leb128_nonempty (8 * num + wt)) as Hne.
      apply ends_with_app in H as [H1 H2].
      replace (_ <? _)%nat with true by lia.
      assert (Hn29 : 0 < num /\ num < 536870912).
      { rewrite forallb_forall in Hrange. specialize (Hrange num (nth_error_In _ _ Hnum)).
        change (2 ^ 29) with 536870912 in Hrange. lia. }
      rewrite (varint4_has data pos (8 * num + wt))
        by (try exact H1; change (pow256 4) with 4294967296; lia).
      assert (E1 : N.shiftr (8 * num + wt) 3 = num).
      { rewrite N.shiftr_div_pow2. change (2 ^ 3) with 8. lia. }
      assert (E2 : N.land (8 * num + wt) 7 = wt).
      { change 7 with (N.ones 3). rewrite N.land_ones. change (2 ^ 3) with 8. lia. }
      rewrite E1, E2, (index_of_nth nums i num Hdis Hnum), Hpr, (Hfld i t _ _ _ Ht).
      rewrite IH; [f_equal; lia| |exact Hs|exact H2|lia].
      rewrite forallb_forall in Hwf. apply Hwf. now apply nth_error_In in Ht.
    - (* valid records first *)
      intros nums ts vals rs mid b e vals' p Hm _ IH Hwf Hdis Hrange f data pos fld Hs H Hl Hfld n Hlt.
      rewrite app_length in *. pose proof (records_length rs) as HR.
      apply ends_with_app in H as [H1 H2].
      pose proof (proj2 (reader_merges P c room HP Hlo Hd Hroom) _ _ _ _ _ Hm Hwf Hdis Hrange
        f data pos fld (small63 _ Hs) H1 ltac:(lia) Hfld (n - length rs)%nat) as R.
      replace (length rs + (n - length rs))%nat with n in R by lia. rewrite R.
      rewrite (IH Hwf Hdis Hrange f data _ fld Hs H2 ltac:(lia) Hfld (n - length rs)%nat ltac:(lia)).
      f_equal. lia.
  Qed.
End Breaks.

(** ** C63 *)

(** A damaged message: the error, what was consumed and what the members hold are those of the
    specification. *)
Theorem pb_damaged P c f k prior b e vals p :
  wf_penv P -> breaks_message P (pb_room c) (host_le c) k prior b e vals p ->
  N.of_nat (length b) < 2 ^ 63 -> (length b < f)%nat ->
  des_fields P (pb_icfg c) f k b prior = (RErr e, vals, p).
Proof.
  intros HP H Hs Hf. apply (fields_break P (pb_icfg c) HP); auto.
  apply (proj2 (reader_breaks P (pb_icfg c) (pb_room c) HP (pb_icfg_little c) eq_refl
    (fun n => pb_room_ok c n))). exact H.
Qed.

(** In particular the first damaged record: the records before it are in the members, the
    others are untouched. *)
Theorem pb_first_damaged P c f k prior rs mid i num t pr wt b e v q :
  wf_penv P -> merges_message P (pb_room c) k prior rs mid ->
  nth_error (msg_numbers P k) i = Some num -> nth_error (msg_types P k) i = Some t ->
  nth_error mid i = Some pr -> wt < 8 ->
  breaks_field P (pb_room c) (host_le c) t pr wt b e v q ->
  let data := records_bytes rs ++ leb128 (8 * num + wt) ++ b in
  N.of_nat (length data) < 2 ^ 63 -> (length data < f)%nat ->
  des_fields P (pb_icfg c) f k data prior
  = (RErr e, set_nth i v mid,
     (length (records_bytes rs) + length (leb128 (8 * num + wt)) + q)%nat) /\
  forall j, j <> i -> nth_error (set_nth i v mid) j = nth_error mid j.
Proof.
  intros HP Hm Hn Ht Hp Hw Hb data Hs Hf. split.
  - rewrite <- Nat.add_assoc. apply pb_damaged; auto.
    eapply br_next; [exact Hm|]. eapply br_field; eauto.
  - intros j Hj. clear -Hj. revert i j Hj. induction mid as [|x mid IH]; intros [|i] [|j] Hj;
      cbn; try reflexivity; try congruence. apply IH. congruence.
Qed.

Lemma nested_damaged data fields prior b e res p size pos :
  (exists tail, ends_with data pos (b ++ tail) /\
     (size = Some (N.of_nat (length b)) \/ size = None /\ tail = [])) ->
  fields b (as_seq prior) = (RErr e, res, p) ->
  des_nested data fields size prior pos = (RErr e, VSeq res, (pos + p)%nat).
Proof.
  intros (tail & [H1 H2] & Hs) Hf. unfold des_nested, rest_of.
  replace (_ <=? _)%nat with true by lia. rewrite H2.
  assert (E : firstn (match size with
                      | Some s => N.to_nat (N.min s (N.of_nat (length (b ++ tail))))
                      | None => length (b ++ tail) end) (b ++ tail) = b).
  { rewrite app_length. destruct Hs as [-> | [-> ->]].
    - replace (N.to_nat _) with (length b) by lia.
      rewrite firstn_app, firstn_all, Nat.sub_diag. apply app_nil_r.
    - rewrite app_nil_r. apply firstn_all2. cbn. lia. }
  now rewrite E, Hf.
Qed.

(** The archive: the position moves past the length prefix and past what was consumed of the
    message, whatever follows it. *)
Theorem pb_damaged_item P c s k prior data pos pre b tail e vals p fuel :
  wf_penv P -> breaks_message P (pb_room c) (host_le c) k prior b e vals p ->
  (s = SzNone /\ pre = [] /\ tail = [] \/
   s <> SzNone /\ pb_prefix_ok c s (N.of_nat (length b)) /\ pre = proto_prefix c s (N.of_nat (length b))) ->
  N.of_nat (length data) < 2 ^ 63 -> (pos <= length data)%nat ->
  skipn pos data = pre ++ b ++ tail -> (length b < fuel)%nat ->
  des_pb_item P c data fuel s k (VSeq prior) pos
  = (RErr e, VSeq vals, (pos + length pre + p)%nat).
Proof.
  intros HP Hb Hpre Hd Hp Hat Hf. unfold des_pb_item.
  assert (He : ends_with data pos (pre ++ b ++ tail)) by (split; assumption).
  pose proof (ends_with_length _ _ _ He) as HL. rewrite !app_length in HL.
  apply ends_with_app in He as [H1 H2].
  assert (F : des_fields P (pb_icfg c) fuel k b (as_seq (VSeq prior)) = (RErr e, vals, p))
    by (apply pb_damaged; auto; lia).
  destruct Hpre as [(-> & -> & ->) | (Hne & Hpp & ->)].
  - cbn [des_protocol length] in *. rewrite Nat.add_0_r in *. apply nested_damaged with (b := b); [|exact F].
    exists []. split; [|now right]. exact H2.
  - rewrite (des_protocol_prefix c s _ data pos _ _ Hne Hpp Hd H1).
    apply nested_damaged with (b := b); [|exact F]. exists tail. split; [exact H2|now left].
Qed.

(** message 0 of the demonstration schema: the id arrives, then the second of two phones is
    damaged: its number announces five bytes and one is left. *)
Example pb_damaged_nontrivial :
  let rs := [(2, WVar (varint_number 4 true true (2 ^ 32 - 3)));
             (4, WLen (records_bytes [(2, WVar 7)]))] in
  let bad := leb128 (8 * 4 + 2) ++ leb128 3 ++ [n2b 10; n2b 5; n2b 65] in
  let start_vals := m_dflt (pb_demo 0%nat) in
  let data := records_bytes rs ++ bad in
  exists vals,
    breaks_message pb_demo (pb_room vec_cfg) (host_le vec_cfg) 0 start_vals data
      result_out_of_range vals 10 /\
    vals = [VSeq []; VN (2 ^ 32 - 3); VSeq [VSeq [VSeq []; VN 7]]; VSeq []; VSeq []; VSeq []; VN 0;
            VSeq [VSeq []; VN 0]; VSeq []; VSeq []; VN 0] /\
    length data = 11%nat /\
    des_pb_item pb_demo vec_cfg (x00 :: data) 20 SzNone 0 (VSeq start_vals) 1
    = (RErr result_out_of_range, VSeq vals, 11%nat) /\
  (* the same damage in the embedded phone: what it had read stays, the string is zeros *)
    des_fields pb_demo (pb_icfg vec_cfg) 20 0
      (leb128 (8 * 9 + 2) ++ leb128 5 ++ [n2b 16; n2b 3; n2b 10; n2b 5; n2b 65]) start_vals
    = (RErr result_out_of_range, set_nth 7 (VSeq [pb_text [0; 0; 0; 0; 0]; VN 3]) start_vals, 6%nat).
Proof.
  intros rs bad start_vals data. eexists. split.
  - unfold data, breaks_message. change 10%nat with (length (records_bytes rs) + 4)%nat.
    eapply br_next.
    + unfold rs. eapply mgs_cons with (i := 1%nat); [reflexivity|reflexivity|reflexivity| |].
      * apply mg_var; [reflexivity|reflexivity].
      * eapply mgs_cons with (i := 2%nat); [reflexivity|reflexivity|reflexivity| |apply mgs_nil].
        apply mg_msgs. eapply mgs_cons with (i := 1%nat); [reflexivity|reflexivity|reflexivity| |apply mgs_nil].
        apply (mg_var _ _ 4 false false (VN 0) 7); [reflexivity|discriminate].
    + unfold bad. change 4%nat with (length (leb128 (8 * 4 + 2)) + 3)%nat.
      eapply (br_field _ _ _ _ _ _ 2 4); [reflexivity|reflexivity|reflexivity|reflexivity|].
      change 3%nat with (length (leb128 3) + 2)%nat.
      change [n2b 10; n2b 5; n2b 65] with ([n2b 10; n2b 5; n2b 65] ++ []).
      eapply bf_msgs; [reflexivity|left; reflexivity|].
      change [n2b 10; n2b 5; n2b 65] with (leb128 (8 * 1 + 2) ++ [n2b 5; n2b 65]).
      change 2%nat with (length (leb128 (8 * 1 + 2)) + 1)%nat.
      eapply (br_field _ _ _ _ _ _ 0 1); [reflexivity|reflexivity|reflexivity|reflexivity|].
      change [n2b 5; n2b 65] with (leb128 (N.of_nat (5 * 1)) ++ [n2b 65]).
      change 1%nat with (length (leb128 (N.of_nat (5 * 1)))) at 3.
      apply bf_fixes; [reflexivity|reflexivity|reflexivity|cbn; lia].
  - repeat split; vm_compute; reflexivity.
Qed.
