(** The protobuf writer produces the records of the message. *)

From Coq Require Import List NArith ZArith Lia Bool Arith.
From Coq Require Import ZifyBool ZifyNat ZifyN.
From Verif Require Import Base.Bytes Model.Types Model.Machine Model.Varint Model.Out Model.In
  Model.Loops Model.Protocol Model.Pb Spec.Leb128 Spec.Wire Spec.PbWire
  Proofs.VarintP Proofs.OutP Proofs.InRound Proofs.ProtoP.
Import ListNotations.
Local Open Scope N_scope.

Ltac Zify.zify_post_hook ::= Z.div_mod_to_equations.

(** ** Numbers and tags *)

Lemma mapped_find mp idx :
  distinct (map fst mp) = true ->
  mapped mp idx = match find (fun ft => fst ft =? N.of_nat idx + 1) mp with
                  | Some ft => snd ft | None => 0 end.
Proof.
  induction mp as [|[a b] mp IH]; intro H; [reflexivity|].
  cbn [map fst distinct] in H. apply andb_true_iff in H as [Hx Hd]. specialize (IH Hd).
  unfold mapped in *. cbn [fold_right fst snd find]. rewrite (N.eqb_sym (N.of_nat idx + 1) a).
  destruct (N.eqb_spec a (N.of_nat idx + 1)) as [->|Hne]; [|rewrite IH; lia].
  rewrite IH. apply negb_true_iff in Hx.
  destruct (find (fun ft => fst ft =? N.of_nat idx + 1) mp) as [[a' b']|] eqn:E; [|cbn [snd]; lia].
  exfalso. apply find_some in E as [Hin E]. cbn [fst] in E. apply N.eqb_eq in E. subst a'.
  assert (Ht : existsb (N.eqb (N.of_nat idx + 1)) (map fst mp) = true).
  { apply existsb_exists. exists (N.of_nat idx + 1). split; [|apply N.eqb_refl].
    apply in_map_iff. exists (N.of_nat idx + 1, b'). auto. }
  congruence.
Qed.

Definition map_ok (mp : list (N * N)) : Prop :=
  distinct (map fst mp) = true /\ forallb (fun ft => 0 <? snd ft) mp = true.

Lemma number_spec mp expl idx :
  map_ok mp -> number_from_struct mp expl idx = spec_number mp expl idx.
Proof.
  intros [H1 H2]. unfold number_from_struct, field_number, spec_number.
  destruct expl as [n|]; [reflexivity|]. rewrite mapped_find by exact H1.
  destruct (find _ mp) as [ft|] eqn:E; [|reflexivity].
  apply find_some in E as [Hin _]. rewrite forallb_forall in H2. specialize (H2 ft Hin). cbn beta in H2.
  destruct (N.eqb_spec (snd ft) 0); [lia|reflexivity].
Qed.

Lemma tag_value w num wt :
  (w = 4 \/ w = 8)%nat -> num < 2 ^ 29 -> wt < 8 ->
  N.lor (trunc w (N.shiftl num 3)) wt = 8 * num + wt /\ 8 * num + wt < pow256 w.
Proof.
  intros Hw Hn Ht. change (2 ^ 29) with 536870912 in Hn.
  assert (HP : 4294967296 <= pow256 w) by (destruct Hw as [-> | -> ]; vm_compute; discriminate).
  split; [|lia]. unfold trunc. rewrite N.shiftl_mul_pow2. change (2 ^ 3) with 8.
  rewrite N.mod_small by lia. rewrite N.lor_comm.
  replace (num * 8) with (N.shiftl num 3) by (rewrite N.shiftl_mul_pow2; reflexivity).
  rewrite lor_disjoint by exact Ht. change (2 ^ 3) with 8. lia.
Qed.

Lemma field_number_width mp expl idx :
  (snd (field_number mp expl idx) = 4 \/ snd (field_number mp expl idx) = 8)%nat.
Proof. unfold field_number. destruct expl; [now left|]. destruct (_ =? 0); auto. Qed.

Lemma pemits_varint c w n :
  wfw w = true -> n < pow256 w -> pemits c (ser_varint c w false false n) (leb128 n).
Proof. intros Hw Hn. apply emits_pemits. now apply emits_varint. Qed.

Lemma pemits_tag c mp expl idx wt :
  map_ok mp -> spec_number mp expl idx < 2 ^ 29 -> wt < 8 ->
  pemits c (ser_tag c mp expl idx wt) (leb128 (8 * spec_number mp expl idx + wt)).
Proof.
  intros Hm Hn Ht. unfold ser_tag.
  pose proof (number_spec mp expl idx Hm) as E. unfold number_from_struct in E.
  pose proof (field_number_width mp expl idx) as Hw.
  destruct (field_number mp expl idx) as [num w]. cbn [fst snd] in *. subst num.
  destruct (tag_value w _ wt Hw Hn Ht) as [-> H2].
  apply pemits_varint; [destruct Hw as [-> | -> ]; reflexivity|exact H2].
Qed.

(** ** Leaves *)

Lemma pemits_put c e : pemits c (put c e) e.
Proof. apply emits_pemits, emits_put. Qed.

Definition little_out (c : cfg) : Prop := xorb (host_le c) (swap c) = true.

Lemma scalar_bytes_little c w n : little_out c -> scalar_bytes c w n = le_bytes w n.
Proof.
  intro H. rewrite scalar_bytes_wscalar. unfold wscalar, fmt_of. cbn [little]. now rewrite H.
Qed.

Lemma wf_no_types : wf_env no_types.
Proof. intro k. split; reflexivity. Qed.

Lemma enc_all_scalars o w b l :
  little o = true -> forallb (numok w) l = true ->
  enc_all (enc no_types o) l (TScalar w b) = pdone (flat_map (fun x => le_bytes w (vnum x)) l).
Proof.
  intro Ho. induction l as [|x l IH]; intro H; [reflexivity|].
  cbn [forallb] in H. apply andb_true_iff in H as [Hx H]. specialize (IH H).
  cbn [enc_all flat_map]. rewrite IH. destruct x; try discriminate.
  cbn [enc vnum]. unfold wscalar. rewrite Ho. reflexivity.
Qed.

Lemma numok_wt w b l :
  forallb (numok w) l = true -> forallb (fun x => wt no_types x (TScalar w b)) l = true.
Proof.
  rewrite !forallb_forall. intros H x Hin. specialize (H x Hin). destruct x; try discriminate. exact H.
Qed.

Lemma pseq_done a b : pseq (pdone a) (pdone b) = pdone (a ++ b).
Proof. reflexivity. Qed.

Lemma wfw_pos w : wfw w = true -> (0 <? w)%nat = true.
Proof. intro H. destruct (wfw_cases w H) as [-> | [-> | [-> | -> ]]]; reflexivity. Qed.

Lemma scalar_ty_wf w : wfw w = true -> wf no_types (scalar_ty w) = true.
Proof.
  intro H. unfold scalar_ty. cbn [wf]. rewrite (wfw_pos w H). cbn [andb].
  destruct (Nat.eqb_spec w 1); reflexivity.
Qed.

Lemma pemits_unsized c ck w l :
  szok c = true -> little_out c -> wfw w = true -> forallb (numok w) l = true ->
  ckok ck l = true ->
  pemits c (ser no_types c (VSeq l) (unsized_ty ck w)) (flat_map (fun x => le_bytes w (vnum x)) l).
Proof.
  intros Hs Hlo Hw Hl Hck. apply emits_pemits.
  assert (HE : enc no_types (fmt_of c) (VSeq l) (unsized_ty ck w)
               = pdone (flat_map (fun x => le_bytes w (vnum x)) l)).
  { destruct ck; cbn [unsized_ty enc]; unfold scalar_ty;
      rewrite (enc_all_scalars (fmt_of c) w (w =? 1)%nat l Hlo Hl); unfold wire_size; apply pseq_done. }
  rewrite <- HE. apply ser_emits; auto using wf_no_types.
  - intro; reflexivity.
  - intros _ k; reflexivity.
  - destruct ck; cbn [unsized_ty wt ckok] in *; unfold scalar_ty;
      rewrite (numok_wt w (w =? 1)%nat l Hl); auto.
  - destruct ck; cbn [unsized_ty wf wfsz]; now rewrite scalar_ty_wf.
  - destruct ck; reflexivity.
  - destruct ck; reflexivity.
Qed.

Lemma pemits_str c contig w sw l :
  dsize c = SzVar sw -> wfw sw = true -> little_out c -> wfw w = true ->
  forallb (numok w) l = true -> N.of_nat (length l) < pow256 sw ->
  pemits c (ser no_types c (VSeq l) (TVec None contig (scalar_ty w)))
    (leb128 (N.of_nat (length l)) ++ flat_map (fun x => le_bytes w (vnum x)) l).
Proof.
  intros Hd Hsw Hlo Hw Hl Hn. apply emits_pemits.
  assert (HE : enc no_types (fmt_of c) (VSeq l) (TVec None contig (scalar_ty w))
               = pdone (leb128 (N.of_nat (length l)) ++ flat_map (fun x => le_bytes w (vnum x)) l)).
  { cbn [enc]. unfold scalar_ty. rewrite (enc_all_scalars (fmt_of c) w (w =? 1)%nat l Hlo Hl).
    unfold wire_size, fmt_of. cbn [wsize]. rewrite Hd, N.mod_small by exact Hn. apply pseq_done. }
  rewrite <- HE. apply ser_emits; auto using wf_no_types.
  - unfold szok. rewrite Hd. exact Hsw.
  - intro; reflexivity.
  - intros _ k; reflexivity.
  - cbn [wt]. unfold scalar_ty. now apply numok_wt.
  - cbn [wf wfsz]. now rewrite scalar_ty_wf.
Qed.

Lemma pemits_array c n w l :
  szok c = true -> little_out c -> (0 < n)%nat -> wfw w = true -> length l = n ->
  forallb (numok w) l = true ->
  pemits c (ser no_types c (VSeq l) (TArray n (scalar_ty w))) (flat_map (fun x => le_bytes w (vnum x)) l).
Proof.
  intros Hs Hlo Hn Hw Hlen Hl. apply emits_pemits.
  assert (HE : enc no_types (fmt_of c) (VSeq l) (TArray n (scalar_ty w))
               = pdone (flat_map (fun x => le_bytes w (vnum x)) l)).
  { cbn [enc]. unfold scalar_ty. apply (enc_all_scalars (fmt_of c) w (w =? 1)%nat l Hlo Hl). }
  rewrite <- HE. apply ser_emits; auto using wf_no_types.
  - intro; reflexivity.
  - intros _ k; reflexivity.
  - cbn [wt]. apply andb_true_iff. split; [now apply Nat.eqb_eq|].
    unfold scalar_ty. now apply numok_wt.
  - cbn [wf]. rewrite scalar_ty_wf by exact Hw. apply andb_true_iff. split; [now apply Nat.ltb_lt|reflexivity].
Qed.

Lemma pemits_each c f g l :
  Forall (fun x => pemits c (f x) (g x)) l -> pemits c (ser_each f l) (flat_map g l).
Proof.
  induction 1 as [|x l Hx _ IH]; cbn [ser_each flat_map]; [apply pemits_ret|].
  now apply pemits_seq.
Qed.

(** ** Lengths *)

Lemma wadd_small a b : a + b < two64 -> wadd a b = a + b.
Proof. intro H. unfold wadd. now apply N.mod_small. Qed.

Lemma varints_size_from w sg zz l acc :
  wfw w = true -> forallb (numok w) l = true ->
  acc + N.of_nat (length (flat_map (fun x => leb128 (varint_number w sg zz (vnum x))) l)) < two64 ->
  fold_left (fun acc x => wadd acc (varint_size (wire_value w sg zz (vnum x)))) l acc
  = acc + N.of_nat (length (flat_map (fun x => leb128 (varint_number w sg zz (vnum x))) l)).
Proof.
  intro Hw. revert acc. induction l as [|x l IH]; intros acc Hl Hb; cbn [fold_left flat_map] in *.
  - cbn [length]. lia.
  - cbn [forallb] in Hl. apply andb_true_iff in Hl as [Hx Hl]. destruct x; try discriminate.
    apply N.ltb_lt in Hx. cbn [vnum] in *. rewrite app_length in *.
    rewrite wire_value_number by assumption. rewrite varint_size_length.
    rewrite wadd_small by lia. rewrite IH by (assumption || lia). lia.
Qed.

Lemma varints_size_eq w sg zz l :
  wfw w = true -> forallb (numok w) l = true ->
  N.of_nat (length (flat_map (fun x => leb128 (varint_number w sg zz (vnum x))) l)) < two64 ->
  varints_size w sg zz l
  = N.of_nat (length (flat_map (fun x => leb128 (varint_number w sg zz (vnum x))) l)).
Proof.
  intros Hw Hl Hb. unfold varints_size. rewrite varints_size_from by (assumption || lia). lia.
Qed.

Lemma flat_le_length w l : length (flat_map (fun x => le_bytes w (vnum x)) l) = (length l * w)%nat.
Proof.
  induction l as [|x l IH]; [reflexivity|]. cbn [flat_map length Nat.mul].
  rewrite app_length, le_bytes_length, IH. reflexivity.
Qed.

Lemma wmul_small a b : a * b < two64 -> wmul a b = a * b.
Proof. intro H. unfold wmul. now apply N.mod_small. Qed.

Lemma records_app a b : records_bytes (a ++ b) = records_bytes a ++ records_bytes b.
Proof. apply flat_map_app. Qed.

Lemma records_flat {A} (g : A -> list record) l :
  records_bytes (flat_map g l) = flat_map (fun x => records_bytes (g x)) l.
Proof.
  induction l as [|x l IH]; [reflexivity|]. cbn [flat_map]. now rewrite records_app, IH.
Qed.

Lemma records_map {A} (g : A -> record) l :
  records_bytes (map g l) = flat_map (fun x => record_bytes (g x)) l.
Proof.
  induction l as [|x l IH]; [reflexivity|]. cbn [map]. unfold records_bytes in *. cbn [flat_map].
  now rewrite IH.
Qed.

Lemma record_bytes_eq num p : record_bytes (num, p) = leb128 (8 * num + wire_of p) ++ payload_bytes p.
Proof. reflexivity. Qed.

Lemma records_one r : records_bytes [r] = record_bytes r.
Proof. unfold records_bytes. cbn [flat_map]. apply app_nil_r. Qed.

Lemma flat_map_in_length {A} (g : A -> list byte) l x :
  In x l -> (length (g x) <= length (flat_map g l))%nat.
Proof.
  induction l as [|y l IH]; intro H; [destruct H|]. cbn [flat_map]. rewrite app_length.
  destruct H as [->|H]; [lia|]. specialize (IH H). lia.
Qed.

(** ** The writer *)

(** Repeated messages and strings are tagged with the number derived from the position of the
    member even if it has a pb_field number (finding): that number must be the same. *)
Definition rep_number_ok (mp : list (N * N)) (fd : pfield) (idx : nat) : bool :=
  match snd fd with
  | PStrs _ _ _ | PMsgs _ _ => spec_number mp (fst fd) idx =? spec_number mp None idx
  | _ => true
  end.

Fixpoint rep_numbers_from (mp : list (N * N)) (idx : nat) (fs : list pfield) : bool :=
  match fs with
  | [] => true
  | fd :: fs' => rep_number_ok mp fd idx && rep_numbers_from mp (S idx) fs'
  end.

Definition rep_numbers (P : penv) : Prop :=
  forall k, rep_numbers_from (m_map (P k)) 0 (m_fields (P k)) = true.

Definition is_rep (t : pty) : bool :=
  match t with PStrs _ _ _ | PMsgs _ _ => true | _ => false end.

Definition tags_ok (c : cfg) (num : N) (tg : N -> act) : Prop :=
  forall wt, wt < 8 -> pemits c (tg wt) (leb128 (8 * num + wt)).

Lemma wf_pmsg_facts P k :
  wf_pmsg P k = true ->
  forallb (fun fd => wfp (snd fd)) (m_fields (P k)) = true /\
  distinct (numbers (P k)) = true /\
  forallb (fun n => (0 <? n) && (n <? 2 ^ 29)) (numbers (P k)) = true /\
  map_ok (m_map (P k)) /\ pwt P (VSeq (m_dflt (P k))) (PMsg k) = true.
Proof.
  unfold wf_pmsg, map_ok. rewrite !andb_true_iff. tauto.
Qed.

Lemma wfp_rep_msg k : wfp (PMsg k) = true. Proof. reflexivity. Qed.

Section Writer.
  Variables (P : penv) (c : cfg) (sw : nat).
  Hypothesis (HP : wf_penv P) (HR : rep_numbers P) (Hlo : little_out c).
  Hypothesis (Hd : dsize c = SzVar sw) (Hsw : wfw sw = true).

  Notation fits e := (N.of_nat (length e) < 128 ^ N.of_nat sw).

  Lemma pow128_sw : 128 ^ N.of_nat sw <= 72057594037927936.
  Proof. destruct (wfw_cases sw Hsw) as [-> | [-> | [-> | -> ]]]; vm_compute; discriminate. Qed.

  Lemma pemits_sub body m :
    fits m -> pemits c body m ->
    pemits c (ser_protocol c (dsize c) body) (leb128 (N.of_nat (length m)) ++ m).
  Proof.
    intros Hf Hb. rewrite Hd.
    apply (pemits_protocol c (SzVar sw) body m); auto.
  Qed.

  Definition writes (v : val) : Prop :=
    forall t num tg etg,
      pwt P v t = true -> wfp t = true -> tags_ok c num tg -> (is_rep t = true -> tags_ok c num etg) ->
      fits (records_bytes (member_records P num v t)) ->
      pemits c (ser_pb P c tg etg v t) (records_bytes (member_records P num v t)).

  Lemma pemits_members k l fs idx :
    Forall writes l -> map_ok (m_map (P k)) ->
    forallb (fun fd => wfp (snd fd)) fs = true ->
    forallb (fun n => (0 <? n) && (n <? 2 ^ 29)) (numbers_from (m_map (P k)) idx fs) = true ->
    rep_numbers_from (m_map (P k)) idx fs = true ->
    forall2b (fun x fd => pwt P x (snd fd)) l fs = true ->
    let rs := members_records
      (fun idx fd x => member_records P (spec_number (m_map (P k)) (fst fd) idx) x (snd fd)) idx l fs in
    fits (records_bytes rs) ->
    pemits c
      (ser_members
         (fun idx fd x =>
            ser_pb P c (ser_tag c (m_map (P k)) (fst fd) idx)
              (ser_tag c (m_map (P k)) None idx) x (snd fd)) idx l fs)
      (records_bytes rs).
  Proof.
    intros Hl Hm. revert fs idx. induction Hl as [|x l Hx _ IH]; intros [|fd fs] idx Hwf Hnum Hrep Hwt rs Hf;
      try discriminate; subst rs; cbn [ser_members members_records] in *; [apply pemits_ret|].
    cbn [forallb numbers_from rep_numbers_from forall2b] in *.
    apply andb_true_iff in Hwf as [Hwf1 Hwf]. apply andb_true_iff in Hnum as [Hnum1 Hnum].
    apply andb_true_iff in Hrep as [Hrep1 Hrep]. apply andb_true_iff in Hwt as [Hwt1 Hwt].
    rewrite number_spec in Hnum1 by exact Hm. apply andb_true_iff in Hnum1 as [_ Hlt].
    apply N.ltb_lt in Hlt.
    rewrite records_app in Hf |- *. rewrite app_length in Hf.
    apply pemits_seq; [|apply IH; auto; lia].
    apply Hx; auto; [| |lia].
    - intros wt Hwt'. now apply pemits_tag.
    - intros Hr wt Hwt'. unfold rep_number_ok in Hrep1.
      assert (E : spec_number (m_map (P k)) (fst fd) idx = spec_number (m_map (P k)) None idx).
      { destruct (snd fd); try discriminate; now apply N.eqb_eq. }
      rewrite E in *. now apply pemits_tag.
  Qed.

  Lemma pemits_message_body k l :
    Forall writes l -> forall2b (fun x fd => pwt P x (snd fd)) l (m_fields (P k)) = true ->
    fits (message_bytes P k l) ->
    pemits c (ser_message P c k l) (message_bytes P k l).
  Proof.
    intros Hl Hwt Hf. destruct (wf_pmsg_facts P k (HP k)) as (H1 & H2 & H3 & H4 & H5).
    apply pemits_members; auto.
  Qed.

  Lemma writes_message num tg k l :
    Forall writes l -> forall2b (fun x fd => pwt P x (snd fd)) l (m_fields (P k)) = true ->
    tags_ok c num tg ->
    fits (record_bytes (num, WLen (message_bytes P k l))) ->
    pemits c (tg 2 ;; ser_protocol c (dsize c) (ser_message P c k l))
      (record_bytes (num, WLen (message_bytes P k l))).
  Proof.
    intros Hl Hwt Htg Hf. unfold record_bytes in *. cbn [fst snd wire_of payload_bytes] in *.
    rewrite !app_length in Hf.
    apply pemits_seq; [apply Htg; reflexivity|].
    apply pemits_sub; [lia|]. apply pemits_message_body; auto. lia.
  Qed.

  Lemma writes_all n v : (height v <= n)%nat -> writes v.
  Proof.
    revert v. induction n as [|n IH]; intros v Hh.
    { destruct v; cbn [height] in Hh; lia. }
    intros t num tg etg Hwt Hwf Htg Hetg Hf.
    pose proof pow128_sw as Hpow.
    assert (Hpow2 : 128 ^ N.of_nat sw <= pow256 sw) by apply pow128_le_256.
    assert (Hsz : szok c = true) by (unfold szok; now rewrite Hd).
    destruct t as [w| | |w sg zz| |k|ck w|ck w sg zz|ck contig w|ck k|ak kt vt|m w];
      destruct v as [x|l| |v|i v| |l|l]; try discriminate; cbn [pwt wfp] in Hwt, Hwf;
      cbn [ser_pb member_records] in Hf |- *;
      try (rewrite records_one in Hf |- *; rewrite record_bytes_eq in Hf |- *).
    - (* fixed *)
      assert (Hwire : wire_type (PFix w) = wire_of (if (w =? 4)%nat then W32 x else W64 x)
        /\ payload_bytes (if (w =? 4)%nat then W32 x else W64 x) = le_bytes w x).
      { cbn [wire_type]. apply orb_true_iff in Hwf as [E|E]; apply Nat.eqb_eq in E; subst w; split; reflexivity. }
      destruct Hwire as [-> ->]. rewrite scalar_bytes_little by exact Hlo.
      apply pemits_seq; [|apply pemits_put]. apply Htg. destruct (w =? 4)%nat; reflexivity.
    - (* bool *)
      apply pemits_seq; [apply Htg; reflexivity|]. cbn [payload_bytes].
      apply N.ltb_lt in Hwt. rewrite scalar_bytes_little by exact Hlo.
      replace (leb128 x) with (le_bytes 1 x); [apply pemits_put|].
      apply leb128_unique. assert (Hx : x = 0 \/ x = 1) by lia.
      destruct Hx as [-> | -> ]; constructor; reflexivity.
    - (* byte *)
      rewrite scalar_bytes_little by exact Hlo.
      apply pemits_seq; [apply Htg; reflexivity|apply pemits_put].
    - (* varint *)
      apply pemits_seq; [apply Htg; reflexivity|]. apply N.ltb_lt in Hwt.
      apply emits_pemits. now apply emits_varint.
    - (* empty class *) apply pemits_ret.
    - (* message *)
      apply (writes_message num tg k l); auto.
      rewrite Forall_forall. intros x Hin. apply IH. pose proof (height_in l x Hin). lia.
    - (* fundamentals *)
      apply andb_true_iff in Hwt as [Hl Hck]. destruct l as [|y l]; [apply pemits_ret|].
      set (m := y :: l) in *. rewrite records_one in Hf |- *. rewrite record_bytes_eq in Hf |- *.
      cbn [wire_of payload_bytes wire_type] in *. rewrite !app_length in Hf.
      rewrite flat_le_length in Hf |- *.
      apply pemits_seq; [apply Htg; reflexivity|].
      apply pemits_seq; [|now apply pemits_unsized].
      rewrite wmul_small by (rewrite two64_val; lia).
      replace (N.of_nat (length m) * N.of_nat w) with (N.of_nat (length m * w)) by lia.
      apply pemits_varint; [reflexivity|].
      change (pow256 8) with two64. rewrite two64_val. lia.
    - (* varints *)
      apply andb_true_iff in Hwt as [Hl Hck].
      destruct l as [|y l].
      { unfold varints_size. cbn [fold_left]. apply pemits_ret. }
      set (m := y :: l) in *. rewrite records_one in Hf |- *. rewrite record_bytes_eq in Hf |- *.
      cbn [wire_of payload_bytes wire_type] in *. rewrite !app_length in Hf.
      set (e := flat_map (fun x : val => leb128 (varint_number w sg zz (vnum x))) m) in *.
      assert (Hsize : varints_size w sg zz m = N.of_nat (length e)).
      { apply varints_size_eq; auto. fold e. rewrite two64_val. lia. }
      rewrite Hsize.
      assert (Hpos : (0 < length e)%nat).
      { unfold e, m. cbn [flat_map]. rewrite app_length.
        pose proof (leb128_nonempty (varint_number w sg zz (vnum y))). lia. }
      destruct (N.eqb_spec (N.of_nat (length e)) 0); [lia|].
      apply pemits_seq; [apply Htg; reflexivity|].
      apply pemits_seq.
      { apply pemits_varint; [reflexivity|]. change (pow256 8) with two64. rewrite two64_val. lia. }
      apply pemits_each. rewrite forallb_forall in Hl. rewrite Forall_forall. intros x Hin.
      specialize (Hl x Hin). destruct x; try discriminate. cbn [numok] in Hl. apply N.ltb_lt in Hl.
      apply emits_pemits. now apply emits_varint.
    - (* strings *)
      apply andb_true_iff in Hwt as [Hl Hck]. rewrite records_map in Hf |- *.
      apply pemits_each. rewrite forallb_forall in Hl. rewrite Forall_forall. intros x Hin.
      pose proof (flat_map_in_length (fun x0 => record_bytes
        (num, let b := flat_map (fun y : val => le_bytes w (vnum y)) (as_seq x0) in
              if (w =? 1)%nat then WLen b else WCount (N.of_nat (length (as_seq x0))) b)) l x Hin) as HL.
      cbn beta in HL. specialize (Hl x Hin). destruct x as [|m| | | | | |]; try discriminate.
      cbn [as_seq] in *. cbn zeta in *.
      set (b := flat_map (fun y : val => le_bytes w (vnum y)) m) in *.
      assert (HE : record_bytes (num, if (w =? 1)%nat then WLen b else WCount (N.of_nat (length m)) b)
        = leb128 (8 * num + 2) ++ leb128 (N.of_nat (length m)) ++ b).
      { rewrite record_bytes_eq. destruct (Nat.eqb_spec w 1) as [->|]; [|reflexivity].
        cbn [wire_of payload_bytes]. unfold b. rewrite flat_le_length, Nat.mul_1_r. reflexivity. }
      rewrite HE in *. rewrite !app_length in HL.
      apply pemits_seq; [apply (Hetg eq_refl); reflexivity|].
      apply (pemits_str c contig w sw); auto.
      assert (length m <= length b)%nat.
      { unfold b. rewrite flat_le_length. pose proof (wfw_pos w Hwf). nia. }
      lia.
    - (* messages *)
      apply andb_true_iff in Hwt as [Hl Hck]. rewrite records_flat in Hf |- *.
      apply pemits_each. rewrite forallb_forall in Hl. rewrite Forall_forall. intros x Hin.
      match type of Hf with context [flat_map ?g l] =>
        pose proof (flat_map_in_length g l x Hin) as HL end.
      cbn beta in HL. specialize (Hl x Hin). destruct x as [|m| | | | | |]; try discriminate.
      rewrite records_one in HL |- *.
      apply (writes_message num etg k m); auto; [|unfold message_bytes, message_records; lia].
      rewrite Forall_forall. intros x Hin2. apply IH.
      pose proof (height_in l _ Hin). pose proof (height_in m x Hin2). lia.
    - (* maps *)
      apply andb_true_iff in Hwt as [Hl Hck]. apply andb_true_iff in Hwf as [Hwk Hwv].
      rewrite records_flat in Hf |- *.
      apply pemits_each. rewrite forallb_forall in Hl. rewrite Forall_forall. intros x Hin.
      match type of Hf with context [flat_map ?g l] =>
        pose proof (flat_map_in_length g l x Hin) as HL end.
      cbn beta in HL. specialize (Hl x Hin).
      destruct x as [|m| | | | | |]; try discriminate.
      destruct m as [|a [|b [|]]]; try discriminate.
      apply andb_true_iff in Hl as [Ha Hb].
      rewrite records_one in HL |- *. rewrite record_bytes_eq in HL |- *.
      cbn [wire_of payload_bytes wire_type] in *. rewrite records_app in *. rewrite !app_length in HL.
      pose proof (height_in l _ Hin) as H1.
      pose proof (height_in [a; b] a ltac:(cbn; auto)) as H2.
      pose proof (height_in [a; b] b ltac:(cbn; auto)) as H3.
      apply pemits_seq; [apply Htg; reflexivity|].
      apply pemits_sub; [rewrite app_length; lia|].
      assert (HT : forall i, (i < 2)%nat -> tags_ok c (N.of_nat i + 1) (ser_tag c [] None i)).
      { intros i Hi wt Hwt'. apply (pemits_tag c [] None i wt); [split; reflexivity| |exact Hwt'].
        change (spec_number [] None i) with (N.of_nat i + 1). change (2 ^ 29) with 536870912. lia. }
      apply pemits_seq.
      + apply IH; auto; try lia. apply (HT 0%nat). lia. intros _; apply (HT 0%nat). lia.
      + apply IH; auto; try lia. apply (HT 1%nat). lia. intros _; apply (HT 1%nat). lia.
    - (* C array *)
      apply andb_true_iff in Hwt as [Hn Hl]. apply andb_true_iff in Hwf as [Hm Hw].
      apply Nat.eqb_eq in Hn. apply Nat.ltb_lt in Hm.
      apply pemits_seq; [apply Htg; reflexivity|]. cbn [payload_bytes]. now apply pemits_array.
  Qed.

  Theorem pemits_pb_message k l :
    pwt P (VSeq l) (PMsg k) = true -> fits (message_bytes P k l) ->
    pemits c (ser_message P c k l) (message_bytes P k l).
  Proof.
    intros Hwt Hf. apply pemits_message_body; auto.
    rewrite Forall_forall. intros x _. now apply (writes_all (height x)).
  Qed.
End Writer.
