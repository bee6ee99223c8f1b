(** Messages through any archive, and their bytes as protobuf records. *)

From Coq Require Import List NArith ZArith Lia Bool Arith.
From Coq Require Import ZifyBool ZifyNat ZifyN.
From Verif Require Import Base.Bytes Model.Types Model.Machine Model.Varint Model.Out Model.In
  Model.Loops Model.Protocol Model.Pb Spec.Leb128 Spec.Wire Spec.PbWire
  Proofs.VarintP Proofs.OutP Proofs.InRound Proofs.ProtoP Proofs.PbOut.
Import ListNotations.
Local Open Scope N_scope.

Ltac Zify.zify_post_hook ::= Z.div_mod_to_equations.

(** ** The nested archive *)

Lemma pemits_nested c a e : pemits (pb_ocfg c) a e -> pemits c (pb_nested c a) e.
Proof.
  intros H. unfold pb_nested, pb_ocfg in *. destruct (pb_direct c); [exact H|].
  intros Hw Hl st Hst. specialize (H Hw Hl st Hst).
  destruct (a st) as [r st']. destruct H as [H1 H2].
  destruct r; (split; [|exact H2]); try exact H1.
  destruct H1 as [Hg (k & junk & E1 & E2 & E3 & E4)]. split; [exact Hg|].
  exists k, junk. cbn [obuf opos]. split; [exact E1|]. split; [lia|]. split; [exact E3|exact E4].
Qed.

(** Width of the size type of the archive the members are written to. *)
Definition pb_width (c : cfg) : nat :=
  match dsize c with SzVar w => if pb_direct c then w else 8 | _ => 8 end.

Lemma pb_ocfg_size c :
  wfsz (Some (dsize c)) = true ->
  dsize (pb_ocfg c) = SzVar (pb_width c) /\ wfw (pb_width c) = true.
Proof.
  unfold pb_ocfg, pb_width, pb_direct. destruct (dsize c) as [|w|w] eqn:E; cbn [wfsz]; intro H;
    try (split; reflexivity).
  destruct (host_le c || swap c); [now rewrite E|split; reflexivity].
Qed.

Theorem pemits_pb_item P c s k l :
  wf_penv P -> rep_numbers P -> little_out (pb_ocfg c) -> wfsz (Some (dsize c)) = true ->
  wfsz (Some s) = true -> pwt P (VSeq l) (PMsg k) = true ->
  N.of_nat (length (message_bytes P k l)) < 128 ^ N.of_nat (pb_width c) ->
  size_fits s (N.of_nat (length (message_bytes P k l))) ->
  pemits c (ser_pb_item P c s k l)
    (proto_prefix c s (N.of_nat (length (message_bytes P k l))) ++ message_bytes P k l).
Proof.
  intros HP HR Hlo Hd Hs Hw Hf Hsf. unfold ser_pb_item, pb_out.
  apply pemits_protocol; [exact Hs|exact Hsf|]. apply pemits_nested.
  destruct (pb_ocfg_size c Hd) as [Hd1 Hd2].
  now apply (pemits_pb_message P (pb_ocfg c) (pb_width c)).
Qed.

(** ** Parsing records *)

Definition valid_record (r : record) : bool :=
  (0 <? fst r) &&
  match snd r with
  | WVar _ | WLen _ => true
  | W64 n => n <? pow256 8
  | W32 n => n <? pow256 4
  | WCount _ _ | WByte _ | WRaw _ => false
  end.

Lemma leb_value_one n x : leb_value (leb128 n ++ x) = Some (n, length (leb128 n)).
Proof. apply leb_value_leb128. Qed.

Lemma skipn_app_len {A} (a b : list A) : skipn (length a) (a ++ b) = b.
Proof. rewrite skipn_app, Nat.sub_diag, skipn_all. reflexivity. Qed.

Lemma take_app a b : take (length a) (a ++ b) = Some (a, b).
Proof.
  unfold take. rewrite app_length. replace (_ <=? _)%nat with true by lia.
  rewrite skipn_app_len, firstn_app, Nat.sub_diag, firstn_all. cbn [firstn]. now rewrite app_nil_r.
Qed.

Lemma parse_payload_bytes r x :
  valid_record r = true ->
  parse_payload (wire_of (snd r)) (payload_bytes (snd r) ++ x) = Some (snd r, x).
Proof.
  destruct r as [num p]. unfold valid_record. cbn [fst snd]. intro H.
  apply andb_true_iff in H as [_ H].
  destruct p as [n|n|b|n|n b|n|b]; cbn [wire_of payload_bytes parse_payload]; try discriminate.
  - rewrite leb_value_one. now rewrite skipn_app_len.
  - pose proof (take_app (le_bytes 8 n) x) as E. rewrite le_bytes_length in E. rewrite E.
    rewrite le_val_le_bytes_small by lia. reflexivity.
  - rewrite <- app_assoc. rewrite leb_value_one, skipn_app_len, Nat2N.id, take_app. reflexivity.
  - pose proof (take_app (le_bytes 4 n) x) as E. rewrite le_bytes_length in E. rewrite E.
    rewrite le_val_le_bytes_small by lia. reflexivity.
Qed.

Lemma wire_lt8 p : wire_of p < 8.
Proof. destruct p; reflexivity. Qed.

Lemma record_nonempty r : (0 < length (record_bytes r))%nat.
Proof.
  unfold record_bytes. rewrite app_length. pose proof (leb128_nonempty (8 * fst r + wire_of (snd r))). lia.
Qed.

Lemma parse_records_bytes rs :
  forallb valid_record rs = true ->
  forall n, (length rs <= n)%nat -> parse_records n (records_bytes rs) = Some rs.
Proof.
  induction rs as [|r rs IH]; intros Hv n Hn; [destruct n; reflexivity|].
  cbn [forallb] in Hv. apply andb_true_iff in Hv as [Hr Hv]. cbn [length] in Hn.
  destruct n as [|n]; [lia|].
  unfold records_bytes. cbn [flat_map]. fold (records_bytes rs).
  set (l := record_bytes r ++ records_bytes rs).
  assert (Hne : l <> []).
  { unfold l. intro E. apply app_eq_nil in E as [E _]. pose proof (record_nonempty r).
    rewrite E in *. cbn in *. lia. }
  assert (E : parse_records (S n) l =
    match leb_value l with
    | Some (tag, k) =>
        if tag / 8 =? 0 then None
        else match parse_payload (tag mod 8) (skipn k l) with
             | Some (p, rest) =>
                 match parse_records n rest with
                 | Some rs => Some ((tag / 8, p) :: rs)
                 | None => None
                 end
             | None => None
             end
    | None => None
    end) by (destruct l; [congruence|reflexivity]).
  rewrite E. clear E Hne. subst l. unfold record_bytes. rewrite <- app_assoc.
  rewrite leb_value_one, skipn_app_len.
  pose proof (wire_lt8 (snd r)) as Hw.
  assert (H8 : (8 * fst r + wire_of (snd r)) / 8 = fst r) by lia.
  assert (Hm : (8 * fst r + wire_of (snd r)) mod 8 = wire_of (snd r)) by lia.
  rewrite H8, Hm.
  assert (Hp : 0 < fst r) by (unfold valid_record in Hr; lia).
  destruct (N.eqb_spec (fst r) 0); [lia|].
  rewrite parse_payload_bytes by exact Hr. rewrite IH by (exact Hv || lia).
  now destruct r.
Qed.

Lemma records_length rs : (length rs <= length (records_bytes rs))%nat.
Proof.
  induction rs as [|r rs IH]; [cbn; lia|]. unfold records_bytes in *. cbn [flat_map length].
  rewrite app_length. pose proof (record_nonempty r). lia.
Qed.

Theorem parse_records_exact rs :
  forallb valid_record rs = true -> parse (records_bytes rs) = Some rs.
Proof. intro H. apply parse_records_bytes; [exact H|apply records_length]. Qed.

(** ** The records of a standard message are valid *)

Lemma forallb_flat {A B} (p : B -> bool) (f : A -> list B) l :
  (forall x, In x l -> forallb p (f x) = true) -> forallb p (flat_map f l) = true.
Proof.
  induction l as [|x l IH]; intro H; [reflexivity|]. cbn [flat_map]. rewrite forallb_app.
  rewrite H by (now left). cbn [andb]. apply IH. intros y Hy. apply H. now right.
Qed.

Lemma member_records_valid P num v t :
  pwt P v t = true -> wfp t = true -> standard_ty t = true -> 0 < num ->
  forallb valid_record (member_records P num v t) = true.
Proof.
  intros Hw Hwf Hst Hn. apply N.ltb_lt in Hn.
  destruct t as [w| | |w sg zz| |k|ck w|ck w sg zz|ck contig w|ck k|ak kt vt|m w];
    destruct v as [x|l| |v|i v| |l|l]; try discriminate;
    cbn [pwt wfp standard_ty] in Hw, Hwf, Hst; try discriminate;
    cbn [member_records]; try (unfold valid_record; cbn [forallb fst snd]; now rewrite Hn); try reflexivity.
  - apply orb_true_iff in Hwf as [E|E]; apply Nat.eqb_eq in E; subst w;
      unfold valid_record; cbn [Nat.eqb forallb fst snd]; now rewrite Hw, Hn.
  - destruct l; [reflexivity|]. unfold valid_record; cbn [forallb fst snd]; now rewrite Hn.
  - destruct l; [reflexivity|]. unfold valid_record; cbn [forallb fst snd]; now rewrite Hn.
  - apply Nat.eqb_eq in Hst. subst w. clear Hw. induction l as [|x l IH]; [reflexivity|].
    cbn [map forallb]. rewrite IH; unfold valid_record; cbn [forallb fst snd]; now rewrite Hn.
  - apply forallb_flat. intros [] _; try reflexivity. unfold valid_record; cbn [forallb fst snd]; now rewrite Hn.
  - apply forallb_flat. intros [|[|a [|b [|]]]| | | | | |] _; try reflexivity. unfold valid_record; cbn [forallb fst snd]; now rewrite Hn.
Qed.

Lemma message_records_valid P k l :
  wf_penv P -> standard P -> pwt P (VSeq l) (PMsg k) = true ->
  forallb valid_record (message_records P k l) = true.
Proof.
  intros HP HS Hw. destruct (wf_pmsg_facts P k (HP k)) as (H1 & H2 & H3 & H4 & H5).
  cbn [pwt] in Hw. specialize (HS k). unfold message_records, numbers in *. clear H2 H5.
  revert H1 H3 HS Hw. generalize (m_fields (P k)) as fs. generalize 0%nat as idx.
  intros idx fs. revert idx l.
  induction fs as [|fd fs IH]; intros idx [|x l] H1 H3 HS Hw; try discriminate; try reflexivity.
  cbn [forallb forall2b numbers_from members_records] in *.
  rewrite !andb_true_iff in *. destruct H1 as [H1 H1'], H3 as [[H3 _] H3'], HS as [HS HS'], Hw as [Hw Hw'].
  rewrite forallb_app, andb_true_iff. split; [|now apply IH].
  rewrite number_spec in H3 by exact H4. apply member_records_valid; auto. lia.
Qed.
