(** The protobuf reader implements the specification of reading records. *)

From Coq Require Import List NArith ZArith Lia Bool Arith.
From Coq Require Import ZifyBool ZifyNat ZifyN.
From Verif Require Import Base.Bytes Model.Types Model.Machine Model.Varint Model.Out Model.In
  Model.Loops Model.Protocol Model.Pb
  Spec.Leb128 Spec.Wire Spec.PbWire Spec.PbMerge
  Proofs.VarintP Proofs.OutP Proofs.InBase Proofs.InSafe Proofs.InRound Proofs.InFuel Proofs.ProtoP
  Proofs.PbOut Proofs.PbParse Proofs.PbIn.
Import ListNotations.
Local Open Scope N_scope.

Ltac Zify.zify_post_hook ::= Z.div_mod_to_equations.

Lemma has_at_le {A} (l : list A) p e : has_at l p e -> (p + length e <= length l)%nat.
Proof. now intros []. Qed.

Lemma has_at_rest {A} (l : list A) p e :
  has_at l p e -> firstn (length e) (skipn p l) = e.
Proof. now intros [_ H]. Qed.

Lemma start_clear ts vals : clear_members ts vals = start ts vals.
Proof.
  revert vals. induction ts as [|t ts IH]; intros [|v vals]; cbn [clear_members start]; try reflexivity.
  rewrite IH. f_equal. now destruct t.
Qed.

Lemma numbers_spec_numbers mp idx fs :
  map_ok mp -> numbers_from mp idx fs = spec_numbers mp idx fs.
Proof.
  intro H. revert idx. induction fs as [|fd fs IH]; intro idx; [reflexivity|].
  cbn [numbers_from spec_numbers]. now rewrite IH, number_spec.
Qed.

Lemma index_of_nth nums i n :
  distinct nums = true -> nth_error nums i = Some n -> index_of nums n = Some i.
Proof.
  revert i. induction nums as [|x nums IH]; intros [|i] Hd Hn; cbn in *; try discriminate;
    apply andb_true_iff in Hd as [Hx Hd].
  - injection Hn as ->. now rewrite N.eqb_refl.
  - destruct (N.eqb_spec x n) as [->|Hne]; [|now rewrite (IH i Hd Hn)].
    exfalso. apply negb_true_iff in Hx. assert (existsb (N.eqb n) nums = true); [|congruence].
    apply existsb_exists. exists n. split; [|apply N.eqb_refl]. now apply nth_error_In in Hn.
Qed.

Lemma varint4_has data pos tag :
  tag < pow256 4 -> has_at data pos (leb128 tag) ->
  des_varint 4 false 0 data pos = (ROk, tag, (pos + length (leb128 tag))%nat).
Proof.
  intros Ht H. change tag with (varint_number 4 false false tag) in H.
  apply (des_varint_has (mkCfg true false (SzVar 8) None 1 1 false false true (fun _ => true) (fun _ => 0))
           data 4 false false 0 tag pos eq_refl Ht ltac:(discriminate) H).
Qed.

Lemma varint8_has data pos n :
  n < pow256 8 -> has_at data pos (leb128 n) ->
  des_varint 8 false 0 data pos = (ROk, n, (pos + length (leb128 n))%nat).
Proof.
  intros Ht H. change n with (varint_number 8 false false n) in H.
  apply (des_varint_has (mkCfg true false (SzVar 8) None 1 1 false false true (fun _ => true) (fun _ => 0))
           data 8 false false 0 n pos eq_refl Ht ltac:(discriminate) H).
Qed.

Lemma small_lt8 data n : small data -> (n <= length data)%nat -> N.of_nat n < pow256 8.
Proof. unfold small. change (pow256 8) with (2 ^ 64). lia. Qed.

Section Packed.
  Variables (data : list byte) (fetch : nat -> res * N * nat) (ins : list val -> val -> list val).
  Variable e : val -> list byte.

  Lemma packed_loop_reads l :
    (forall x pos, In x l -> has_at data pos (e x) ->
       fetch pos = (ROk, vnum x, (pos + length (e x))%nat) /\ x = VN (vnum x) /\ (0 < length (e x))%nat) ->
    forall n acc pos,
      has_at data pos (flat_map e l) -> (length l <= n)%nat ->
      packed_loop fetch ins (N.of_nat (pos + length (flat_map e l))) n acc pos
      = (ROk, VSeq (fold_left ins l acc), (pos + length (flat_map e l))%nat).
  Proof.
    induction l as [|x l IH]; intros Hf n acc pos H Hn.
    - cbn [flat_map length fold_left]. rewrite Nat.add_0_r.
      destruct n; cbn [packed_loop]; rewrite N.ltb_irrefl; reflexivity.
    - cbn [flat_map fold_left length] in *. apply has_at_app in H as [H1 H2].
      destruct n as [|n]; [lia|]. cbn [packed_loop].
      destruct (Hf x pos (or_introl eq_refl) H1) as (E & Ex & Hp).
      rewrite app_length. replace (_ <? _) with true by lia.
      rewrite E, <- Ex.
      specialize (IH (fun y p Hy => Hf y p (or_intror Hy)) n (ins acc x) _ H2 ltac:(lia)).
      replace (pos + (length (e x) + length (flat_map e l)))%nat
        with (pos + length (e x) + length (flat_map e l))%nat by lia.
      exact IH.
  Qed.
End Packed.

Lemma numok_vn w x : numok w x = true -> x = VN (vnum x) /\ vnum x < pow256 w.
Proof. destruct x; try discriminate. cbn. split; [reflexivity|lia]. Qed.

Lemma flat_ge {A} (f : A -> list byte) l :
  (forall x, In x l -> (0 < length (f x))%nat) -> (length l <= length (flat_map f l))%nat.
Proof.
  induction l as [|x l IH]; intro H; cbn [flat_map length]; [lia|].
  rewrite app_length. pose proof (H x (or_introl eq_refl)).
  specialize (IH (fun y Hy => H y (or_intror Hy))). lia.
Qed.

Section Read.
  Variables (P : penv) (c : cfg) (room : N -> bool).
  Hypothesis (HP : wf_penv P) (Hlo : little_out c) (Hd : dsize c = SzVar 8).
  Hypothesis Hroom : forall n, room n = true ->
    can_alloc c n = true /\ match alim c with Some lim => n <= lim | None => True end.

  Lemma scalar_has data w prior n pos :
    small data -> n < pow256 w -> has_at data pos (le_bytes w n) ->
    des_scalar c data w prior pos = (ROk, n, (pos + w)%nat).
  Proof.
    intros Hs Hn H. apply des_scalar_has; auto. unfold wscalar, fmt_of. cbn [little].
    now rewrite Hlo.
  Qed.

  (** Elements of a container of scalars already of the right size. *)
  Lemma elems_has data rec contig w l priors pos :
    small data -> wfw w = true -> forallb (numok w) l = true -> forallb (numok w) priors = true ->
    length priors = length l -> has_at data pos (flat_map (fun x => le_bytes w (vnum x)) l) ->
    des_elems c data (as_bytes c (scalar_ty w) && contig) (des_ty no_types c data rec (scalar_ty w))
      (scalar_ty w) priors pos
    = (ROk, VSeq l, (pos + length (flat_map (fun x => le_bytes w (vnum x)) l))%nat).
  Proof.
    intros Hs Hw Hl Hp Hlen H.
    pose proof (enc_all_scalars (fmt_of c) w (w =? 1)%nat l Hlo Hl) as E. fold (scalar_ty w) in E.
    pose proof (des_elems_reads no_types c data Hs (as_bytes c (scalar_ty w) && contig)
      (des_ty no_types c data rec (scalar_ty w)) (scalar_ty w) l priors pos) as R.
    rewrite E in R. cbn [fst snd pdone] in R. apply R; auto.
    - now apply scalar_ty_wf.
    - intro Hb. now apply andb_true_iff in Hb as [Hb _].
    - now rewrite forallb_numok.
    - intros x Hin _ prior p Hwt Hx. rewrite forallb_forall in Hl. specialize (Hl x Hin).
      destruct x as [n| | | | | | |]; try discriminate. cbn [numok] in Hl.
      unfold scalar_ty in *. cbn [enc pdone fst des_ty] in *.
      rewrite (des_scalar_has c data Hs w _ n p) by (auto; lia).
      unfold nres. now rewrite wscalar_length.
    - now rewrite forallb_numok.
  Qed.

  Lemma room_limit n w count :
    room n = true -> n = count * N.of_nat w -> (0 < w)%nat ->
    match alim c with Some l => l / N.of_nat w <? count | None => false end = false.
  Proof.
    intros Hr Hn Hw. destruct (Hroom n Hr) as [_ H]. revert H. case (alim c); [|reflexivity].
    intros lim H. apply N.ltb_ge. apply N.div_le_lower_bound; lia.
  Qed.

  Lemma room_bytes n :
    room n = true -> match alim c with Some lim => lim <? n | None => false end = false.
  Proof.
    intro Hr. destruct (Hroom n Hr) as [_ H]. revert H. case (alim c); [|reflexivity].
    intros lim H. now apply N.ltb_ge.
  Qed.

  Lemma str_has data rec contig w m pos :
    small data -> wfw w = true -> forallb (numok w) m = true ->
    room (N.of_nat (length (flat_map (fun x => le_bytes w (vnum x)) m))) = true ->
    has_at data pos (leb128 (N.of_nat (length m)) ++ flat_map (fun x => le_bytes w (vnum x)) m) ->
    des_ty no_types c data rec (TVec None contig (scalar_ty w)) (VSeq []) pos
    = (ROk, VSeq m, (pos + length (leb128 (N.of_nat (length m))
        ++ flat_map (fun x => le_bytes w (vnum x)) m))%nat).
  Proof.
    intros Hs Hw Hm Hr H. cbn [des_ty sz_of]. rewrite Hd. cbn [des_size].
    apply has_at_app in H as [H1 H2].
    pose proof (wfw_pos w Hw) as Hwp.
    pose proof (flat_le_length w m) as HL.
    rewrite (varint8_has data pos (N.of_nat (length m))) by
      (try exact H1; apply (small_lt8 data); auto; apply has_at_le in H2; rewrite HL in H2; nia).
    unfold vec_resize, over_limit, csizeof, scalar_ty. cbn [bs bsize as_seq].
    fold (scalar_ty w).
    assert (EL : N.of_nat (length m) * N.of_nat w
                 = N.of_nat (length (flat_map (fun x => le_bytes w (vnum x)) m))) by (rewrite HL; lia).
    assert (E1 : match alim c with
                 | Some l => l / N.of_nat w <? N.of_nat (length m) | None => false end = false).
    { apply (room_limit _ _ _ Hr); lia. }
    rewrite E1, EL. destruct (Hroom _ Hr) as [Hc _]. rewrite Hc, orb_true_r.
    rewrite Nat2N.id. rewrite app_length, Nat.add_assoc.
    apply (elems_has data rec contig w m); auto.
    - change (dflt no_types (scalar_ty w)) with (VN 0). unfold vresize.
      rewrite firstn_nil. cbn [app length]. rewrite Nat.sub_0_r.
      apply forallb_forall. intros x Hx. apply repeat_spec in Hx. subst x. cbn.
      pose proof (pow256_pos w). lia.
    - apply vresize_length.
  Qed.

  Definition reads_member (t : pty) (prior : val) (p : payload) (v : val) : Prop :=
    wfp t = true -> forall f data pos, small data -> has_at data pos (payload_bytes p) ->
    (length (payload_bytes p) <= f)%nat ->
    des_field P c (des_fields P c f) t data (wire_of p) prior pos
    = (ROk, v, (pos + length (payload_bytes p))%nat).

  Definition reads_members (nums : list N) (ts : list pty) (vals : list val) (rs : list record)
    (vals' : list val) : Prop :=
    forallb wfp ts = true -> distinct nums = true ->
    forallb (fun n => (0 <? n) && (n <? 2 ^ 29)) nums = true ->
    forall f data pos fld, small data -> has_at data pos (records_bytes rs) ->
    (length (records_bytes rs) <= f)%nat ->
    (forall i t wt prior pos, nth_error ts i = Some t ->
       fld i wt prior pos = des_field P c (des_fields P c f) t data wt prior pos) ->
    forall n, field_loop data nums fld (length rs + n) vals pos
              = field_loop data nums fld n vals' (pos + length (records_bytes rs))%nat.

  Lemma message_facts k :
    msg_numbers P k = numbers (P k) /\ forallb wfp (msg_types P k) = true /\
    distinct (msg_numbers P k) = true /\
    forallb (fun n => (0 <? n) && (n <? 2 ^ 29)) (msg_numbers P k) = true.
  Proof.
    destruct (wf_pmsg_facts P k (HP k)) as (H1 & H2 & H3 & H4 & _).
    assert (E : msg_numbers P k = numbers (P k)).
    { unfold msg_numbers, numbers. now rewrite numbers_spec_numbers. }
    rewrite E. repeat split; auto. unfold msg_types. clear -H1.
    induction (m_fields (P k)) as [|fd fs IH]; [reflexivity|].
    cbn [map forallb] in *. apply andb_true_iff in H1 as [-> H1]. cbn. now apply IH.
  Qed.

  Lemma field_loop_end data nums fld n vals pos :
    pos = length data -> field_loop data nums fld n vals pos = (ROk, vals, pos).
  Proof. intros ->. destruct n; cbn [field_loop]; now rewrite Nat.ltb_irrefl. Qed.

  Lemma fields_read f k prior rs res :
    reads_members (msg_numbers P k) (msg_types P k) (start (msg_types P k) prior) rs res ->
    small (records_bytes rs) -> (length (records_bytes rs) < f)%nat ->
    des_fields P c f k (records_bytes rs) prior = (ROk, res, length (records_bytes rs)).
  Proof.
    intros H Hs Hf. destruct f as [|f]; [lia|]. cbn [des_fields].
    destruct (message_facts k) as (E & H1 & H2 & H3).
    rewrite start_clear. fold (msg_types P k). rewrite <- E.
    pose proof (records_length rs) as HL.
    replace (S (length (records_bytes rs))) with
      (length rs + (S (length (records_bytes rs)) - length rs))%nat by lia.
    rewrite (H H1 H2 H3 f (records_bytes rs) 0%nat _ Hs).
    - rewrite field_loop_end by reflexivity. reflexivity.
    - split; [lia|apply window_all].
    - lia.
    - intros i t wt p pos Ht. unfold msg_types in Ht.
      destruct (nth_error (m_fields (P k)) i) as [fd|] eqn:Ei.
      + rewrite (map_nth_error snd _ _ Ei) in Ht. now injection Ht as <-.
      + exfalso. apply nth_error_None in Ei.
        assert (D : nth_error (map snd (m_fields (P k))) i <> None) by congruence.
        apply nth_error_Some in D. rewrite map_length in D.
        exact (Nat.lt_irrefl _ (Nat.lt_le_trans _ _ _ D Ei)).
  Qed.

  (** A length-delimited message whose fields are read by [fields]. *)
  Lemma nested_reads data fields prior b res pos :
    small data -> has_at data pos (leb128 (N.of_nat (length b)) ++ b) ->
    fields b (as_seq prior) = (ROk, res, length b) ->
    des_protocol c data (dsize c) (des_nested data fields) prior pos
    = (ROk, VSeq res, (pos + length (leb128 (N.of_nat (length b)) ++ b))%nat).
  Proof.
    intros Hs H Hf. unfold des_protocol. rewrite Hd. cbn [des_size].
    apply has_at_app in H as [H1 H2]. pose proof (has_at_le _ _ _ H2) as HL.
    rewrite (varint8_has data pos (N.of_nat (length b))) by
      (try exact H1; apply (small_lt8 data); auto; lia).
    unfold des_nested, rest_of. replace (_ <=? _)%nat with true by lia.
    rewrite skipn_length.
    replace (N.to_nat _) with (length b) by lia.
    rewrite (has_at_rest _ _ _ H2), Hf, app_length. f_equal. lia.
  Qed.

  Lemma reader_merges :
    (forall t prior p v, merge P room t prior p v -> reads_member t prior p v) /\
    (forall nums ts vals rs vals', merges P room nums ts vals rs vals' ->
       reads_members nums ts vals rs vals').
  Proof.
    apply merge_merges_ind.
    - (* fix4 *) intros p n Hn Hwf f data pos Hs H Hl. cbn [payload_bytes wire_of des_field] in *.
      rewrite (scalar_has data 4 _ n pos Hs Hn H). cbn [nres]. now rewrite le_bytes_length.
    - (* fix8 *) intros p n Hn Hwf f data pos Hs H Hl. cbn [payload_bytes wire_of des_field] in *.
      rewrite (scalar_has data 8 _ n pos Hs Hn H). cbn [nres]. now rewrite le_bytes_length.
    - (* bool *) intros p n Hn Hwf f data pos Hs H Hl. cbn [payload_bytes wire_of des_field] in *.
      assert (E : leb128 n = le_bytes 1 n).
      { symmetry. apply leb128_unique. assert (Hx : n = 0 \/ n = 1) by lia.
        destruct Hx as [-> | -> ]; constructor; reflexivity. }
      rewrite E in *. rewrite (scalar_has data 1 0 n pos Hs) by
        (try exact H; change (pow256 1) with 256; lia).
      replace (n <? 2) with true by lia. now rewrite le_bytes_length.
    - (* byte *) intros p n Hn Hwf f data pos Hs H Hl. cbn [payload_bytes wire_of des_field] in *.
      assert (E : leb128 n = le_bytes 1 n).
      { symmetry. apply leb128_unique. constructor. exact Hn. }
      rewrite <- E in *. change n with (varint_number 1 false false n) in H.
      rewrite (des_varint_has c data 1 false false _ n pos eq_refl) by
        (try exact H; try discriminate; change (pow256 1) with 256; lia).
      reflexivity.
    - (* varint *) intros w sg zz p n Hn Hz Hwf f data pos Hs H Hl.
      cbn [payload_bytes wire_of des_field wfp] in *.
      now rewrite (des_varint_has c data w sg zz _ n pos Hwf Hn Hz H).
    - (* message *) intros k prior rs res _ IH Hwf f data pos Hs H Hl.
      cbn [payload_bytes wire_of des_field] in *.
      pose proof (has_at_le _ _ _ H) as HL. rewrite app_length in *.
      pose proof (leb128_nonempty (N.of_nat (length (records_bytes rs)))) as Hne.
      rewrite (nested_reads data _ (VSeq prior) (records_bytes rs) res pos Hs H);
        [now rewrite app_length|].
      apply fields_read; [exact IH|unfold small in *; lia|lia].
    - (* fixes *) intros ct rv w prior l b Hl Hp Hr Hwf f data pos Hs H Hf.
      cbn [payload_bytes wire_of des_field wfp] in *. subst b.
      set (b := flat_map (fun x => le_bytes w (vnum x)) l) in *.
      apply has_at_app in H as [H1 H2]. pose proof (has_at_le _ _ _ H2) as HL.
      unfold des_scalars. change (negb (2 =? 2)) with false. cbv iota.
      rewrite (varint8_has data pos (N.of_nat (length b))) by
        (try exact H1; apply (small_lt8 data); auto; lia).
      assert (Hb : length b = (length l * w)%nat) by apply flat_le_length.
      pose proof (wfw_pos w Hwf) as Hwp.
      destruct (Hroom _ Hr) as [Hc _].
      rewrite (room_bytes _ Hr). cbn [as_seq].
      assert (E2 : N.of_nat (length b) / N.of_nat w = N.of_nat (length l)).
      { rewrite Hb, Nat2N.inj_mul. apply N.div_mul. lia. }
      rewrite E2. replace (N.of_nat (length l) * N.of_nat w) with (N.of_nat (length b)) by lia.
      rewrite Hc, orb_true_r, Nat2N.id. cbn [unsized_ty des_ty sz_of as_seq].
      rewrite app_length, Nat.add_assoc. apply elems_has; auto.
      + apply forallb_forall. apply Forall_forall. apply vresize_forall.
        * cbn. pose proof (pow256_pos w). lia.
        * now apply Forall_forall, forallb_forall.
      + apply vresize_length.
    - (* fixes into a set *) intros ak rv w prior l b Hl Hr Hwf f data pos Hs H Hf.
      cbn [payload_bytes wire_of des_field wfp] in *. subst b.
      set (b := flat_map (fun x => le_bytes w (vnum x)) l) in *.
      apply has_at_app in H as [H1 H2]. pose proof (has_at_le _ _ _ H2) as HL.
      unfold des_scalars. change (negb (2 =? 2)) with false. cbv iota.
      rewrite (varint8_has data pos (N.of_nat (length b))) by
        (try exact H1; apply (small_lt8 data); auto; lia).
      cbn [as_seq].
      assert (E1 : reserve_ok c (CSet ak rv) (N.of_nat (length b)) prior = true).
      { unfold reserve_ok, element_room in *. destruct rv; [|reflexivity].
        destruct (Hroom _ Hr) as [-> _]. now rewrite orb_true_r. }
      rewrite E1.
      replace (wadd _ _) with (N.of_nat (pos + length (leb128 (N.of_nat (length b))) + length b)).
      2:{ unfold wadd, two64. unfold small in Hs. rewrite N.mod_small; lia. }
      rewrite app_length, Nat.add_assoc.
      pose proof (wfw_pos w Hwf) as Hwp.
      apply (packed_loop_reads data _ (cinsert (CSet ak rv)) (fun x => le_bytes w (vnum x)) l); auto.
      + intros x p Hin Hx. rewrite forallb_forall in Hl. destruct (numok_vn w x (Hl x Hin)) as [Ex Hv].
        rewrite le_bytes_length. split; [now apply scalar_has|]. split; [exact Ex|lia].
      + unfold b in HL. pose proof (flat_le_length w l). nia.
    - (* fixes, one *) intros ck prior n Hn Hwf f data pos Hs H Hl.
      cbn [payload_bytes wire_of des_field] in *. unfold des_scalars.
      change (negb (5 =? 2)) with true. cbv iota.
      rewrite (scalar_has data 4 _ n pos Hs Hn H). now rewrite le_bytes_length.
    - intros ck prior n Hn Hwf f data pos Hs H Hl.
      cbn [payload_bytes wire_of des_field] in *. unfold des_scalars.
      change (negb (1 =? 2)) with true. cbv iota.
      rewrite (scalar_has data 8 _ n pos Hs Hn H). now rewrite le_bytes_length.
    - (* varints *) intros ck w sg zz prior l b Hl Hz Hr Hwf f data pos Hs H Hf.
      cbn [payload_bytes wire_of des_field wfp] in *. subst b.
      set (b := flat_map (fun x => leb128 (varint_number w sg zz (vnum x))) l) in *.
      apply has_at_app in H as [H1 H2]. pose proof (has_at_le _ _ _ H2) as HL.
      unfold des_scalars. change (negb (2 =? 2)) with false. cbv iota.
      rewrite (varint8_has data pos (N.of_nat (length b))) by
        (try exact H1; apply (small_lt8 data); auto; lia).
      cbn [as_seq].
      assert (E1 : reserve_ok c ck (N.of_nat (length b)) prior = true).
      { unfold reserve_ok, element_room in *. destruct ck as [? [?|]|? [?|]]; try reflexivity;
        destruct (Hroom _ Hr) as [-> _]; now rewrite orb_true_r. }
      rewrite E1.
      replace (wadd _ _) with (N.of_nat (pos + length (leb128 (N.of_nat (length b))) + length b)).
      2:{ unfold wadd, two64. unfold small in Hs. rewrite N.mod_small; lia. }
      rewrite app_length, Nat.add_assoc.
      apply (packed_loop_reads data _ (cinsert ck)
               (fun x => leb128 (varint_number w sg zz (vnum x))) l); auto.
      + intros x p Hin Hx. rewrite forallb_forall in Hl. destruct (numok_vn w x (Hl x Hin)) as [Ex Hv].
        split; [now apply (des_varint_has c data w sg zz 0 (vnum x) p)|].
        split; [exact Ex|apply leb128_nonempty].
      + assert (length l <= length b)%nat; [|lia]. apply flat_ge. intros; apply leb128_nonempty.
    - (* varints, one *) intros ck w sg zz prior n Hn Hz Hwf f data pos Hs H Hl.
      cbn [payload_bytes wire_of des_field wfp] in *. unfold des_scalars.
      change (negb (0 =? 2)) with true. cbv iota.
      now rewrite (des_varint_has c data w sg zz _ n pos Hwf Hn Hz H).
    - (* strings *) intros ck contig w prior m b Hm Hr Hwf f data pos Hs H Hl.
      cbn [des_field wfp] in *. subst b.
      set (b := flat_map (fun x => le_bytes w (vnum x)) m) in *.
      assert (E : payload_bytes (if (w =? 1)%nat then WLen b else WCount (N.of_nat (length m)) b)
        = leb128 (N.of_nat (length m)) ++ b).
      { destruct (Nat.eqb_spec w 1) as [->|]; [|reflexivity].
        cbn [payload_bytes]. unfold b. rewrite flat_le_length, Nat.mul_1_r. reflexivity. }
      rewrite E in *. clear E. unfold b in *.
      now rewrite (str_has data _ contig w m pos Hs Hwf Hm Hr H).
    - (* messages *) intros ck k prior rs res _ IH Hwf f data pos Hs H Hl.
      cbn [payload_bytes wire_of des_field] in *.
      pose proof (has_at_le _ _ _ H) as HL. rewrite app_length in *.
      pose proof (leb128_nonempty (N.of_nat (length (records_bytes rs)))) as Hne.
      rewrite (nested_reads data _ (VSeq (m_dflt (P k))) (records_bytes rs) res pos Hs H);
        [cbn [add_object as_seq]; now rewrite app_length|].
      apply fields_read; [exact IH|unfold small in *; lia|lia].
    - (* map entries *) intros ak kt vt prior rs res _ IH Hwf f data pos Hs H Hl.
      cbn [payload_bytes wire_of des_field] in *.
      pose proof (has_at_le _ _ _ H) as HL. rewrite app_length in *.
      pose proof (leb128_nonempty (N.of_nat (length (records_bytes rs)))) as Hne.
      rewrite (nested_reads data _ (VSeq [pdflt P kt; pdflt P vt]) (records_bytes rs) res pos Hs H);
        [cbn [add_object as_seq]; now rewrite app_length|].
      rewrite start_clear. cbn [as_seq].
      pose proof (records_length rs) as HL'.
      replace (S (length (records_bytes rs))) with
        (length rs + (S (length (records_bytes rs)) - length rs))%nat by lia.
      cbn [wfp] in Hwf.
      rewrite (IH ltac:(cbn [forallb]; now rewrite andb_true_r) eq_refl eq_refl f (records_bytes rs) 0%nat).
      + now rewrite field_loop_end.
      + unfold small in *. lia.
      + split; [lia|apply window_all].
      + lia.
      + intros [|[|[|i]]] t wt p q Ht; cbn in Ht; try discriminate; now injection Ht as <-.
    - (* C array *) intros n w prior l b Hn Hl Hpn Hp Hwf f data pos Hs H Hf.
      cbn [payload_bytes wire_of des_field wfp des_ty as_seq] in *. subst b.
      apply andb_true_iff in Hwf as [_ Hwf].
      rewrite <- (andb_true_r (as_bytes c (scalar_ty w))). apply elems_has; auto. congruence.
    - (* no record *) intros nums ts vals _ _ _ f data pos fld _ _ _ _ n.
      cbn. now rewrite Nat.add_0_r.
    - (* a record *)
      intros nums ts vals i num t prior p v rs vals' Hnum Ht Hpr _ IHm _ IHs Hwf Hdis Hrange
        f data pos fld Hs H Hf Hfld n.
      unfold records_bytes in *. cbn [flat_map] in *. fold (records_bytes rs) in *.
      apply has_at_app in H as [H1 H2]. rewrite app_length in *.
      cbn [length Nat.add field_loop].
      unfold record_bytes in *. cbn [fst snd] in *. apply has_at_app in H1 as [H1 H3].
      rewrite app_length in *. pose proof (has_at_le _ _ _ H1) as HL.
      pose proof (leb128_nonempty (8 * num + wire_of p)) as Hne.
      replace (pos <? length data)%nat with true by lia.
      pose proof (wire_lt8 p) as Hw8.
      assert (Hn29 : 0 < num /\ num < 536870912).
      { rewrite forallb_forall in Hrange. specialize (Hrange num (nth_error_In _ _ Hnum)).
        change (2 ^ 29) with 536870912 in Hrange. lia. }
      rewrite (varint4_has data pos (8 * num + wire_of p)) by (try exact H1; change (pow256 4) with 4294967296; lia).
      assert (E1 : N.shiftr (8 * num + wire_of p) 3 = num).
      { rewrite N.shiftr_div_pow2. change (2 ^ 3) with 8. lia. }
      assert (E2 : N.land (8 * num + wire_of p) 7 = wire_of p).
      { change 7 with (N.ones 3). rewrite N.land_ones. change (2 ^ 3) with 8. lia. }
      rewrite E1, E2, (index_of_nth nums i num Hdis Hnum), Hpr, (Hfld i t _ _ _ Ht).
      rewrite IHm; [|rewrite forallb_forall in Hwf; apply Hwf; now apply nth_error_In in Ht
                    |exact Hs|exact H3|lia].
      rewrite <- Nat.add_assoc.
      rewrite (IHs Hwf Hdis Hrange f data _ fld Hs); [f_equal; lia| |lia|exact Hfld].
      rewrite ?Nat.add_assoc in *. exact H2.
  Qed.

  Theorem reads_message f k prior rs res :
    merges_message P room k prior rs res ->
    small (records_bytes rs) -> (length (records_bytes rs) < f)%nat ->
    des_fields P c f k (records_bytes rs) prior = (ROk, res, length (records_bytes rs)).
  Proof. intros H. apply fields_read. now apply reader_merges. Qed.
End Read.
