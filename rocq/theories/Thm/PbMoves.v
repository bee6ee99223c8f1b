(** C77: writing moves a nested message once for every level that needs a size of two bytes. *)

From Coq Require Import List NArith ZArith Lia Bool Arith.
From Coq Require Import ZifyBool ZifyNat ZifyN.
From Verif Require Import Base.Bytes Model.Types Model.Machine Model.Varint Model.Out Model.In
  Model.Loops Model.Protocol Model.Pb Model.PbMoves
  Spec.Leb128 Spec.Wire Spec.PbWire Proofs.VarintP Proofs.OutP Proofs.InBase Proofs.InSafe Proofs.InRound
  Proofs.ProtoP Proofs.PbOut Proofs.PbIn Proofs.PbParse Proofs.PbRead
  Thm.Demo Thm.Output Thm.Protocol Thm.Resource Thm.Pb Thm.PbInput Thm.PbHold Thm.PbStack.
Import ListNotations.
Local Open Scope N_scope.

Ltac Zify.zify_post_hook ::= Z.div_mod_to_equations.

(** ** Specification *)

(** A message is moved as a whole if its size takes more than one byte. *)
Definition charge (b : list byte) : N := if (length b <? 128)%nat then 0 else N.of_nat (length b).

Section Sums.
  Context (f : val -> pty -> N).
  Fixpoint add_members (l : list val) (fs : list pfield) : N :=
    match l, fs with
    | x :: l', fd :: fs' => f x (snd fd) + add_members l' fs'
    | _, _ => 0
    end.
  Fixpoint max_members (l : list val) (fs : list pfield) : N :=
    match l, fs with
    | x :: l', fd :: fs' => N.max (f x (snd fd)) (max_members l' fs')
    | _, _ => 0
    end.
End Sums.

(** All messages inside a member, at any depth, in bytes as they are on the wire. *)
Fixpoint moved (P : penv) (v : val) (t : pty) {struct v} : N :=
  match t, v with
  | PMsg k, VSeq l => charge (message_bytes P k l) + add_members (moved P) l (m_fields (P k))
  | PMsgs _ k, VSeq l =>
      fold_right
        (fun x s =>
           match x with
           | VSeq m => charge (message_bytes P k m) + add_members (moved P) m (m_fields (P k))
           | _ => 0
           end + s) 0 l
  | PMap _ kt vt, VSeq l =>
      fold_right
        (fun x s =>
           match x with
           | VSeq [a; b] =>
               charge (records_bytes (member_records P 1 a kt ++ member_records P 2 b vt))
               + (moved P a kt + moved P b vt)
           | _ => 0
           end + s) 0 l
  | _, _ => 0
  end.

Definition inside (P : penv) (k : nat) (l : list val) : N := add_members (moved P) l (m_fields (P k)).

(** ** Exactly these are moved *)

Definition costs (c : cfg) (a : act) (ca : count) (e : list byte) (m : N) : Prop :=
  pemits c a e /\
  (wf_out c -> N.of_nat (length e) < 2 ^ 63 -> forall st, ost_ok st ->
   ca st <= m /\ (fst (a st) = ROk -> ca st = m)).

Lemma costs_free c a e : pemits c a e -> costs c a none e 0.
Proof. intro H. split; [exact H|]. intros. split; [unfold none; lia|reflexivity]. Qed.

Lemma pay_cost c a1 c1 e1 m1 a2 c2 e2 m2 st :
  costs c a1 c1 e1 m1 -> costs c a2 c2 e2 m2 -> wf_out c -> N.of_nat (length (e1 ++ e2)) < 2 ^ 63 -> ost_ok st ->
  pay a1 c1 c2 st <= m1 + m2 /\ (fst ((a1 ;; a2) st) = ROk -> pay a1 c1 c2 st = m1 + m2).
Proof.
  intros [E1 H1] [E2 H2] Hw Hl Hok. rewrite app_length in Hl.
  specialize (E1 Hw ltac:(lia) st Hok). specialize (H1 Hw ltac:(lia) st Hok).
  unfold pay, seq. destruct (a1 st) as [r st1]. cbn [fst] in *.
  destruct r; cbn [fst]; try (split; [lia|discriminate]).
  destruct E1 as [E1 _]. pose proof (wrote_ok _ _ _ _ Hok E1) as Hok1.
  specialize (H2 Hw ltac:(lia) st1 Hok1). destruct H1 as [_ ->]; [|reflexivity]. split; [lia|].
  intro Hr. destruct H2 as [_ ->]; [lia|exact Hr].
Qed.

Lemma costs_seq c a1 c1 e1 m1 a2 c2 e2 m2 :
  costs c a1 c1 e1 m1 -> costs c a2 c2 e2 m2 -> costs c (a1 ;; a2) (pay a1 c1 c2) (e1 ++ e2) (m1 + m2).
Proof.
  intros H1 H2. split; [apply pemits_seq; [apply H1|apply H2]|].
  intros Hw Hl st Hok. eapply pay_cost; eauto.
Qed.

Lemma leb128_one n : (length (leb128 n) = 1)%nat <-> n < 128.
Proof.
  split; intro H.
  - assert (L : leb n (leb128 n)) by apply leb128_spec.
    inversion L as [m Hm E|]; subst; [lia|].
    match goal with Hx : leb _ ?l |- _ => pose proof (leb_nonempty _ _ Hx) end.
    match goal with Hx : _ = leb128 n |- _ => rewrite <- Hx in H end. cbn [length] in H. lia.
  - pose proof (leb128_nonempty n). pose proof (leb_length_le n _ 1 (leb128_spec n) ltac:(lia) ltac:(cbn; lia)). lia.
Qed.

Lemma costs_protocol c sw body cb m k :
  wfw sw = true -> N.of_nat (length m) < 128 ^ N.of_nat sw -> costs c body cb m k ->
  costs c (ser_protocol c (SzVar sw) body) (protocol_moves c (SzVar sw) body cb)
    (leb128 (N.of_nat (length m)) ++ m) (charge m + k).
Proof.
  intros Hs Hf Hb. pose proof (proj1 Hb) as Hp.
  split; [apply (pemits_protocol c (SzVar sw) body m Hs Hf Hp)|].
  intros Hw Hl st Hok. rewrite app_length in Hl.
  pose proof (leb128_nonempty (N.of_nat (length m))) as Hne.
  assert (H0 : costs c (ser_size c (SzVar sw) 0) none [x00] 0)
    by apply costs_free, (pemits_size0 c (SzVar sw) Hs).
  assert (Hl1 : N.of_nat (length ([x00] ++ m)) < 2 ^ 63) by (cbn [app length]; lia).
  pose proof (pay_cost _ _ _ _ _ _ _ _ _ st H0 Hb Hw Hl1 Hok) as HB.
  rewrite ser_protocol_var. cbn [protocol_moves].
  change (fun st0 : ost => pay ?a ?b ?c st0) with (pay a b c).
  set (first := ser_size c (SzVar sw) 0 ;; body) in *.
  assert (HP : pemits c first ([x00] ++ m)) by (apply pemits_seq; [apply H0|exact Hp]).
  specialize (HP Hw Hl1 st Hok). set (cf := pay (ser_size c (SzVar sw) 0) none cb) in *.
  unfold pay. destruct (first st) as [r st1] eqn:E1. cbn [fst] in HB.
  destruct r; cbn [fst]; try (split; [lia|discriminate]).
  destruct HP as [HP _]. destruct HB as [_ HB]. rewrite (HB eq_refl). clear HB.
  assert (Hn : wsub (wsub (N.of_nat (opos st1)) (N.of_nat (opos st))) 1 = N.of_nat (length m)).
  { destruct HP as (z & -> & Hz & Hg). cbn [opos app length] in *.
    destruct Hok as [Hp1 Hp3]. rewrite two63_val in *.
    rewrite (wsub_small (N.of_nat (opos st + S (length m)))); rewrite ?two64_val; try lia.
    rewrite wsub_small; rewrite ?two64_val; lia. }
  cbv zeta. rewrite Hn. unfold shift_moves, shift_message, charge, seq.
  rewrite varint_size_length. pose proof (leb128_one (N.of_nat (length m))) as H1.
  destruct (length m <? 128)%nat eqn:E.
  - replace (N.of_nat (length (leb128 (N.of_nat (length m)))) - 1 =? 0) with true by lia.
    split; [lia|intro; lia].
  - replace (N.of_nat (length (leb128 (N.of_nat (length m)))) - 1 =? 0) with false by lia.
    destruct (reserve c _ st1) as [r st2]. destruct r; (split; [lia|]); cbn [fst]; try discriminate. lia.
Qed.

Lemma costs_each c f g e m l :
  Forall (fun x => costs c (f x) (g x) (e x) (m x)) l ->
  costs c (ser_each f l) (each_moves f g l) (flat_map e l) (fold_right (fun x s => m x + s) 0 l).
Proof.
  induction 1 as [|x l Hx _ IH]; cbn [ser_each each_moves flat_map fold_right];
    [apply costs_free, pemits_ret|now apply costs_seq].
Qed.

Section Writer.
  Variables (P : penv) (c : cfg) (sw : nat).
  Hypothesis (HP : wf_penv P) (HR : rep_numbers P) (Hlo : little_out c).
  Hypothesis (Hd : dsize c = SzVar sw) (Hsw : wfw sw = true).

  Notation fits m := (N.of_nat (length m) < 128 ^ N.of_nat sw).

  Definition priced (v : val) : Prop :=
    forall t num tg etg,
      pwt P v t = true -> wfp t = true -> tags_ok c num tg -> (is_rep t = true -> tags_ok c num etg) ->
      fits (records_bytes (member_records P num v t)) ->
      costs c (ser_pb P c tg etg v t) (pb_moves P c tg etg v t) (records_bytes (member_records P num v t))
        (moved P v t).

  Lemma costs_members k l fs idx :
    Forall priced l -> map_ok (m_map (P k)) ->
    forallb (fun fd => wfp (snd fd)) fs = true ->
    forallb (fun n => (0 <? n) && (n <? 2 ^ 29)) (numbers_from (m_map (P k)) idx fs) = true ->
    rep_numbers_from (m_map (P k)) idx fs = true ->
    forall2b (fun x fd => pwt P x (snd fd)) l fs = true ->
    let rs := members_records
      (fun idx fd x => member_records P (spec_number (m_map (P k)) (fst fd) idx) x (snd fd)) idx l fs in
    fits (records_bytes rs) ->
    costs c
      (ser_members
         (fun idx fd x =>
            ser_pb P c (ser_tag c (m_map (P k)) (fst fd) idx)
              (ser_tag c (m_map (P k)) None idx) x (snd fd)) idx l fs)
      (members_moves
         (fun idx fd x =>
            ser_pb P c (ser_tag c (m_map (P k)) (fst fd) idx)
              (ser_tag c (m_map (P k)) None idx) x (snd fd))
         (fun idx fd x =>
            pb_moves P c (ser_tag c (m_map (P k)) (fst fd) idx)
              (ser_tag c (m_map (P k)) None idx) x (snd fd)) idx l fs)
      (records_bytes rs) (add_members (moved P) l fs).
  Proof.
    intros Hl Hm. revert fs idx. induction Hl as [|x l Hx _ IH]; intros [|fd fs] idx Hwf Hnum Hrep Hwt rs Hf;
      try discriminate; subst rs; cbn [ser_members members_moves members_records add_members] in *;
      [apply costs_free, pemits_ret|].
    cbn [forallb numbers_from rep_numbers_from forall2b] in *.
    apply andb_true_iff in Hwf as [Hwf1 Hwf]. apply andb_true_iff in Hnum as [Hnum1 Hnum].
    apply andb_true_iff in Hrep as [Hrep1 Hrep]. apply andb_true_iff in Hwt as [Hwt1 Hwt].
    rewrite number_spec in Hnum1 by exact Hm. apply andb_true_iff in Hnum1 as [_ Hlt].
    apply N.ltb_lt in Hlt.
    rewrite records_app in Hf |- *. rewrite app_length in Hf.
    apply costs_seq; [|apply IH; auto; lia].
    apply Hx; auto; [| |lia].
    - intros wt Hwt'. now apply pemits_tag.
    - intros Hr wt Hwt'. unfold rep_number_ok in Hrep1.
      assert (E : spec_number (m_map (P k)) (fst fd) idx = spec_number (m_map (P k)) None idx).
      { destruct (snd fd); try discriminate; now apply N.eqb_eq. }
      rewrite E in *. now apply pemits_tag.
  Qed.

  Lemma costs_message k l :
    Forall priced l -> forall2b (fun x fd => pwt P x (snd fd)) l (m_fields (P k)) = true ->
    fits (message_bytes P k l) ->
    costs c (ser_message P c k l) (message_moves P c k l) (message_bytes P k l) (inside P k l).
  Proof.
    intros Hl Hwt Hf. destruct (wf_pmsg_facts P k (HP k)) as (H1 & H2 & H3 & H4 & H5).
    apply costs_members; auto.
  Qed.

  Lemma priced_message num tg k l :
    Forall priced l -> forall2b (fun x fd => pwt P x (snd fd)) l (m_fields (P k)) = true ->
    tags_ok c num tg ->
    fits (record_bytes (num, WLen (message_bytes P k l))) ->
    costs c (tg 2 ;; ser_protocol c (dsize c) (ser_message P c k l))
      (pay (tg 2) none (protocol_moves c (dsize c) (ser_message P c k l) (message_moves P c k l)))
      (record_bytes (num, WLen (message_bytes P k l))) (charge (message_bytes P k l) + inside P k l).
  Proof.
    intros Hl Hwt Htg Hf. unfold record_bytes in *. cbn [fst snd wire_of payload_bytes] in *.
    rewrite !app_length in Hf. rewrite <- (N.add_0_l (charge _ + _)).
    apply costs_seq; [apply costs_free, Htg; reflexivity|]. rewrite Hd.
    apply costs_protocol; [exact Hsw|lia|]. apply costs_message; auto. lia.
  Qed.

  Lemma priced_all n v : (height v <= n)%nat -> priced v.
  Proof.
    revert v. induction n as [|n IH]; intros v Hh.
    { destruct v; cbn [height] in Hh; lia. }
    intros t num tg etg Hwt Hwf Htg Hetg Hf.
    pose proof (writes_all P c sw HP HR Hlo Hd Hsw (height v) v (le_n _) t num tg etg Hwt Hwf Htg Hetg Hf) as HW.
    destruct t as [w| | |w sg zz| |k|ck w|ck w sg zz|ck contig w|ck k|ak kt vt|m w];
      destruct v as [x|l| |v|i v| |l|l]; try discriminate; cbn [pwt wfp] in Hwt, Hwf;
      cbn [pb_moves moved]; try (apply costs_free; exact HW); clear HW;
      cbn [ser_pb member_records] in Hf |- *;
      try (rewrite records_one in Hf |- *; rewrite record_bytes_eq in Hf |- *).
    - (* message *)
      apply (priced_message num tg k l); auto.
      rewrite Forall_forall. intros x Hin. apply IH. pose proof (height_in l x Hin). lia.
    - (* messages *)
      apply andb_true_iff in Hwt as [Hl Hck]. rewrite records_flat in Hf |- *.
      match goal with |- costs c _ _ (flat_map ?e l) (fold_right (fun x s => @?m x + s) 0 l) => idtac end.
      apply (costs_each c _ _ _ (fun x => match x with
           | VSeq m => charge (message_bytes P k m) + add_members (moved P) m (m_fields (P k))
           | _ => 0
           end)).
      rewrite forallb_forall in Hl. rewrite Forall_forall. intros x Hin.
      match type of Hf with context [flat_map ?g l] =>
        pose proof (flat_map_in_length g l x Hin) as HL end.
      cbn beta in HL. specialize (Hl x Hin). destruct x as [|m| | | | | |]; try discriminate.
      rewrite records_one in HL |- *.
      apply (priced_message num etg k m); auto; [|unfold message_bytes, message_records; lia].
      rewrite Forall_forall. intros x Hin2. apply IH.
      pose proof (height_in l _ Hin). pose proof (height_in m x Hin2). lia.
    - (* maps *)
      apply andb_true_iff in Hwt as [Hl Hck]. apply andb_true_iff in Hwf as [Hwk Hwv].
      rewrite records_flat in Hf |- *.
      apply (costs_each c _ _ _ (fun x => match x with
           | VSeq [a; b] =>
               charge (records_bytes (member_records P 1 a kt ++ member_records P 2 b vt))
               + (moved P a kt + moved P b vt)
           | _ => 0
           end)).
      rewrite forallb_forall in Hl. rewrite Forall_forall. intros x Hin.
      match type of Hf with context [flat_map ?g l] =>
        pose proof (flat_map_in_length g l x Hin) as HL end.
      cbn beta in HL. specialize (Hl x Hin).
      destruct x as [|m| | | | | |]; try discriminate.
      destruct m as [|a [|b [|]]]; try discriminate.
      apply andb_true_iff in Hl as [Ha Hb].
      rewrite records_one in HL |- *. rewrite record_bytes_eq in HL |- *.
      cbn [wire_of payload_bytes wire_type] in *. rewrite records_app in *. rewrite !app_length in HL.
      pose proof (height_in l _ Hin) as H1.
      pose proof (height_in [a; b] a ltac:(cbn; auto)) as H2.
      pose proof (height_in [a; b] b ltac:(cbn; auto)) as H3.
      rewrite <- (N.add_0_l (charge _ + _)).
      apply costs_seq; [apply costs_free, Htg; reflexivity|]. rewrite Hd.
      apply costs_protocol; [exact Hsw|rewrite app_length; lia|].
      assert (HT : forall i, (i < 2)%nat -> tags_ok c (N.of_nat i + 1) (ser_tag c [] None i)).
      { intros i Hi wt Hwt'. apply (pemits_tag c [] None i wt); [split; reflexivity| |exact Hwt'].
        change (spec_number [] None i) with (N.of_nat i + 1). change (2 ^ 29) with 536870912. lia. }
      apply costs_seq.
      + apply IH; auto; try lia. apply (HT 0%nat). lia. intros _; apply (HT 0%nat). lia.
      + apply IH; auto; try lia. apply (HT 1%nat). lia. intros _; apply (HT 1%nat). lia.
  Qed.
End Writer.

Lemma costs_nested c a ca e m : costs (pb_ocfg c) a ca e m -> costs c (pb_nested c a) ca e m.
Proof.
  intros [H1 H2]. split; [now apply pemits_nested|].
  unfold pb_nested, pb_ocfg in *. destruct (pb_direct c); [exact H2|].
  intros Hw Hl st Hok. specialize (H2 Hw Hl st Hok). destruct (a st) as [r st']. cbn [fst] in *.
  destruct H2 as [H2 H3]. split; [exact H2|]. destruct r; cbn [fst]; try discriminate. exact H3.
Qed.

(** C77: the bytes moved while a message is written: for every nested message, and for the message
    itself if its size is a varint, its whole length if that takes more than one byte.  At most these
    are moved, however the call ends. *)
Theorem pb_moves_exact P c s k l st :
  pb_writing P c s k l -> ost_ok st ->
  let total := match s with SzVar _ => charge (message_bytes P k l) | _ => 0 end + inside P k l in
  pb_item_moves P c s k l st <= total /\
  (fst (ser_pb_item P c s k l st) = ROk -> pb_item_moves P c s k l st = total).
Proof.
  intros [W1 W2 W3 W4 W5 W6 W7 W8 W9 W10] Hok total.
  destruct (pb_ocfg_size c W2) as [Hd1 Hd2]. pose proof (pb_order_little c W3) as Hlo.
  assert (HB : costs c (pb_out P c k l) (message_moves P (pb_ocfg c) k l) (message_bytes P k l) (inside P k l)).
  { apply costs_nested, (costs_message P (pb_ocfg c) (pb_width c)); auto.
    rewrite Forall_forall. intros x _. apply (priced_all P (pb_ocfg c) (pb_width c)) with (n := height x); auto. }
  unfold pb_item_moves, ser_pb_item. destruct s as [|w|w]; cbn [wfsz] in W4.
  - apply HB; auto.
  - subst total. rewrite ser_protocol_fix. cbn [protocol_moves].
    assert (H0 : costs c (ser_size c (SzFix w) 0) none (zeros w) 0)
      by apply costs_free, (pemits_size0 c (SzFix w) W4).
    assert (Hl : N.of_nat (length (zeros w ++ message_bytes P k l)) < 2 ^ 63).
    { cbn [proto_prefix] in W10. rewrite app_length, zeros_length. rewrite app_length, hostrep_length in W10. exact W10. }
    destruct (pay_cost _ _ _ _ _ _ _ _ _ st H0 HB W1 Hl Hok) as [L1 L2]. split; [exact L1|].
    intro Hr. apply L2. destruct ((ser_size c (SzFix w) 0 ;; pb_out P c k l) st) as [r st1].
    destruct r; try discriminate. reflexivity.
  - apply (proj2 (costs_protocol c w _ _ _ _ W4 W9 HB) W1); auto.
Qed.

(** ** Bounds *)

(** The levels of nested messages inside a member. *)
Fixpoint levels (P : penv) (v : val) (t : pty) {struct v} : N :=
  match t, v with
  | PMsg k, VSeq l => 1 + max_members (levels P) l (m_fields (P k))
  | PMsgs _ k, VSeq l =>
      fold_right
        (fun x s =>
           N.max match x with
                 | VSeq m => 1 + max_members (levels P) m (m_fields (P k))
                 | _ => 0
                 end s) 0 l
  | PMap _ kt vt, VSeq l =>
      fold_right
        (fun x s =>
           N.max match x with
                 | VSeq [a; b] => 1 + N.max (levels P a kt) (levels P b vt)
                 | _ => 0
                 end s) 0 l
  | _, _ => 0
  end.

Lemma charge_le b : charge b <= N.of_nat (length b).
Proof. unfold charge. destruct (_ <? _)%nat; lia. Qed.

Definition shallow P (v : val) : Prop := forall t num,
  moved P v t <= levels P v t * N.of_nat (length (records_bytes (member_records P num v t))).

Lemma members_shallow P k l : Forall (shallow P) l -> forall fs idx,
  add_members (moved P) l fs <= max_members (levels P) l fs *
    N.of_nat (length (records_bytes (members_records
      (fun idx fd x => member_records P (spec_number (m_map (P k)) (fst fd) idx) x (snd fd)) idx l fs))).
Proof.
  induction 1 as [|x l Hx _ IH]; intros [|fd fs] idx; cbn [add_members max_members]; try lia.
  cbn [members_records]. rewrite records_app, app_length.
  specialize (IH fs (S idx)). specialize (Hx (snd fd) (spec_number (m_map (P k)) (fst fd) idx)).
  set (a := length (records_bytes (member_records _ _ _ _))) in *.
  set (b := length (records_bytes (members_records _ _ _ _))) in *.
  set (la := levels P x (snd fd)) in *. set (lb := max_members (levels P) l fs) in *.
  rewrite Nat2N.inj_add, N.mul_add_distr_l.
  pose proof (N.mul_le_mono_r la (N.max la lb) (N.of_nat a) (N.le_max_l _ _)).
  pose proof (N.mul_le_mono_r lb (N.max la lb) (N.of_nat b) (N.le_max_r _ _)). lia.
Qed.

Lemma message_shallow P k l : Forall (shallow P) l ->
  charge (message_bytes P k l) + add_members (moved P) l (m_fields (P k))
  <= (1 + max_members (levels P) l (m_fields (P k))) * N.of_nat (length (message_bytes P k l)).
Proof.
  intro H. pose proof (members_shallow P k l H (m_fields (P k)) 0) as HM.
  pose proof (charge_le (message_bytes P k l)). unfold message_bytes, message_records in *. lia.
Qed.

Lemma record_length num b : (length b <= length (record_bytes (num, WLen b)))%nat.
Proof. rewrite record_bytes_eq. cbn [payload_bytes]. rewrite !app_length. lia. Qed.

Lemma each_shallow {A} (m d : A -> N) (e : A -> list byte) l :
  (forall x, In x l -> m x <= d x * N.of_nat (length (e x))) ->
  fold_right (fun x s => m x + s) 0 l
  <= fold_right (fun x s => N.max (d x) s) 0 l * N.of_nat (length (flat_map e l)).
Proof.
  induction l as [|x l IH]; intro H; cbn [fold_right flat_map]; [lia|].
  specialize (IH (fun y Hy => H y (or_intror Hy))). specialize (H x (or_introl eq_refl)).
  rewrite app_length, Nat2N.inj_add, N.mul_add_distr_l.
  set (s := fold_right (fun x s => N.max (d x) s) 0 l) in *.
  pose proof (N.mul_le_mono_r (d x) (N.max (d x) s) (N.of_nat (length (e x))) (N.le_max_l _ _)).
  pose proof (N.mul_le_mono_r s (N.max (d x) s) (N.of_nat (length (flat_map e l))) (N.le_max_r _ _)). lia.
Qed.

Lemma all_shallow P n v : (height v <= n)%nat -> shallow P v.
Proof.
  revert v. induction n as [|n IH]; intros v Hh; [destruct v; cbn [height] in Hh; lia|].
  intros t num.
  destruct t as [w| | |w sg zz| |k|ck w|ck w sg zz|ck contig w|ck k|ak kt vt|m w];
    destruct v as [x|l| |v|i v| |l|l]; cbn [moved levels]; try lia; cbn [member_records].
  - rewrite records_one.
    assert (Hl : Forall (shallow P) l)
      by (rewrite Forall_forall; intros x Hin; apply IH; pose proof (height_in l x Hin); lia).
    pose proof (message_shallow P k l Hl) as HM. pose proof (record_length num (message_bytes P k l)) as HR.
    unfold message_bytes, message_records in *.
    eapply N.le_trans; [exact HM|]. apply N.mul_le_mono_l. lia.
  - rewrite records_flat. apply each_shallow. intros x Hin. destruct x as [|m| | | | | |]; try lia.
    rewrite records_one.
    assert (Hl : Forall (shallow P) m).
    { rewrite Forall_forall. intros x Hin2. apply IH. pose proof (height_in l _ Hin).
      pose proof (height_in m x Hin2). lia. }
    pose proof (message_shallow P k m Hl) as HM. pose proof (record_length num (message_bytes P k m)) as HR.
    unfold message_bytes, message_records in *.
    eapply N.le_trans; [exact HM|]. apply N.mul_le_mono_l. lia.
  - rewrite records_flat. apply each_shallow. intros x Hin. destruct x as [|m| | | | | |]; try lia.
    destruct m as [|a [|b [|]]]; try lia. rewrite records_one.
    pose proof (height_in l _ Hin) as H1.
    pose proof (height_in [a; b] a ltac:(cbn; auto)) as H2.
    pose proof (height_in [a; b] b ltac:(cbn; auto)) as H3.
    pose proof (IH a ltac:(lia) kt 1) as Ia. pose proof (IH b ltac:(lia) vt 2) as Ib.
    set (e := records_bytes (member_records P 1 a kt ++ member_records P 2 b vt)).
    pose proof (record_length num e) as HR. pose proof (charge_le e) as HC.
    assert (HE : length e = (length (records_bytes (member_records P 1 a kt))
      + length (records_bytes (member_records P 2 b vt)))%nat) by (unfold e; now rewrite records_app, app_length).
    set (la := levels P a kt) in *. set (lb := levels P b vt) in *.
    set (x := length (records_bytes (member_records P 1 a kt))) in *.
    set (y := length (records_bytes (member_records P 2 b vt))) in *.
    pose proof (N.mul_le_mono_r la (N.max la lb) (N.of_nat x) (N.le_max_l _ _)).
    pose proof (N.mul_le_mono_r lb (N.max la lb) (N.of_nat y) (N.le_max_r _ _)).
    apply N.le_trans with ((1 + N.max la lb) * N.of_nat (length e)).
    + rewrite HE, Nat2N.inj_add. lia.
    + apply N.mul_le_mono_l. lia.
Qed.

(** C77: at most the bytes of the message, once for every level of nesting. *)
Theorem pb_moves_levels P c s k l st :
  pb_writing P c s k l -> ost_ok st ->
  pb_item_moves P c s k l st
  <= levels P (VSeq l) (PMsg k) * N.of_nat (length (message_bytes P k l)).
Proof.
  intros W Hok. destruct (pb_moves_exact P c s k l st W Hok) as [H _]. eapply N.le_trans; [exact H|].
  assert (Hl : Forall (shallow P) l)
    by (rewrite Forall_forall; intros x _; now apply all_shallow with (n := height x)).
  pose proof (message_shallow P k l Hl) as HM. unfold inside. cbn [levels].
  destruct s; lia.
Qed.

(** Nothing is moved if the message takes less than 128 bytes: then all of its parts do. *)
Definition light P (v : val) : Prop := forall t num,
  (length (records_bytes (member_records P num v t)) < 128)%nat -> moved P v t = 0.

Lemma charge_light b : (length b < 128)%nat -> charge b = 0.
Proof. intro H. unfold charge. now replace (length b <? 128)%nat with true by lia. Qed.

Lemma members_light P k l : Forall (light P) l -> forall fs idx,
  (length (records_bytes (members_records
      (fun idx fd x => member_records P (spec_number (m_map (P k)) (fst fd) idx) x (snd fd)) idx l fs)) < 128)%nat ->
  add_members (moved P) l fs = 0.
Proof.
  induction 1 as [|x l Hx _ IH]; intros [|fd fs] idx H; cbn [add_members]; try reflexivity.
  cbn [members_records] in H. rewrite records_app, app_length in H.
  rewrite (Hx (snd fd) (spec_number (m_map (P k)) (fst fd) idx)) by lia.
  rewrite (IH fs (S idx)) by lia. reflexivity.
Qed.

Lemma message_light P k l : Forall (light P) l -> (length (message_bytes P k l) < 128)%nat ->
  charge (message_bytes P k l) + add_members (moved P) l (m_fields (P k)) = 0.
Proof.
  intros Hl H. rewrite charge_light by exact H. now rewrite (members_light P k l Hl (m_fields (P k)) 0).
Qed.

Lemma each_light {A} (m : A -> N) (e : A -> list byte) l :
  (forall x, In x l -> (length (e x) < 128)%nat -> m x = 0) ->
  (length (flat_map e l) < 128)%nat -> fold_right (fun x s => m x + s) 0 l = 0.
Proof.
  intro H. induction l as [|x l IH]; intro Hl; cbn [fold_right]; [reflexivity|].
  cbn [flat_map] in Hl. rewrite app_length in Hl.
  rewrite IH; [|intros y Hy; apply H; now right|lia].
  rewrite (H x (or_introl eq_refl)) by lia. reflexivity.
Qed.

Lemma all_light P n v : (height v <= n)%nat -> light P v.
Proof.
  revert v. induction n as [|n IH]; intros v Hh; [destruct v; cbn [height] in Hh; lia|].
  intros t num.
  destruct t as [w| | |w sg zz| |k|ck w|ck w sg zz|ck contig w|ck k|ak kt vt|m w];
    destruct v as [x|l| |v|i v| |l|l]; cbn [moved]; try reflexivity; cbn [member_records]; intro H.
  - rewrite records_one in H.
    assert (Hl : Forall (light P) l)
      by (rewrite Forall_forall; intros x Hin; apply IH; pose proof (height_in l x Hin); lia).
    apply message_light; [exact Hl|].
    pose proof (record_length num (message_bytes P k l)) as HR. unfold message_bytes, message_records in *. lia.
  - rewrite records_flat in H. revert H. apply each_light. intros x Hin. destruct x as [|m| | | | | |]; try reflexivity.
    rewrite records_one. intro H.
    assert (Hl : Forall (light P) m).
    { rewrite Forall_forall. intros x Hin2. apply IH. pose proof (height_in l _ Hin).
      pose proof (height_in m x Hin2). lia. }
    apply message_light; [exact Hl|].
    pose proof (record_length num (message_bytes P k m)) as HR. unfold message_bytes, message_records in *. lia.
  - rewrite records_flat in H. revert H. apply each_light. intros x Hin. destruct x as [|m| | | | | |]; try reflexivity.
    destruct m as [|a [|b [|]]]; try reflexivity. rewrite records_one. intro H.
    pose proof (height_in l _ Hin) as H1.
    pose proof (height_in [a; b] a ltac:(cbn; auto)) as H2.
    pose proof (height_in [a; b] b ltac:(cbn; auto)) as H3.
    match type of H with context [WLen ?e] => pose proof (record_length num e) as HR end.
    rewrite charge_light by lia.
    pose proof (f_equal (@length byte) (records_app (member_records P 1 a kt) (member_records P 2 b vt))) as HA.
    rewrite app_length in HA.
    rewrite (IH a ltac:(lia) kt 1), (IH b ltac:(lia) vt 2) by lia. reflexivity.
Qed.

Theorem pb_moves_short P c s k l st :
  pb_writing P c s k l -> ost_ok st -> (length (message_bytes P k l) < 128)%nat ->
  pb_item_moves P c s k l st = 0.
Proof.
  intros W Hok Hl. destruct (pb_moves_exact P c s k l st W Hok) as [H _].
  assert (HL : Forall (light P) l)
    by (rewrite Forall_forall; intros x _; now apply all_light with (n := height x)).
  pose proof (message_light P k l HL Hl) as HM. unfold inside in H. cbv zeta in H. destruct s; cbn [N.add] in H; lia.
Qed.

(** ** The levels count *)

Lemma tree_message l :
  message_bytes tree_env 0 [VSeq [VSeq l]]
  = x0a :: leb128 (N.of_nat (length (message_bytes tree_env 0 l))) ++ message_bytes tree_env 0 l.
Proof.
  change (message_bytes tree_env 0 [VSeq [VSeq l]])
    with (records_bytes (([(1, WLen (message_bytes tree_env 0 l))] ++ []) ++ [])).
  rewrite !app_nil_r, records_one, record_bytes_eq. reflexivity.
Qed.

Lemma branch_eta n : branch n = VSeq (as_seq (branch n)).
Proof. destruct n; reflexivity. Qed.

Lemma branch_message n : message_bytes tree_env 0 (as_seq (branch n)) = branch_bytes n.
Proof.
  induction n as [|n IH]; [reflexivity|].
  cbn [branch as_seq branch_bytes]. rewrite (branch_eta n), tree_message, IH. reflexivity.
Qed.

Lemma branch_inside n : inside tree_env 0 (as_seq (branch (S n)))
  = charge (branch_bytes n) + inside tree_env 0 (as_seq (branch n)).
Proof.
  cbn [branch as_seq]. rewrite <- (branch_message n), (branch_eta n) at 1.
  unfold inside. cbn [tree_env m_fields add_members snd moved fold_right]. cbn [as_seq]. lia.
Qed.

(** The branch of n messages, each inside the one before, is written in at most 11 n bytes, and that
    takes moving n (n - 1) - 4032 bytes. *)
Theorem pb_moves_quadratic n :
  N.of_nat (11 * n) < 2 ^ 56 ->
  exists st', ser_pb_item tree_env vec_cfg SzNone 0 (as_seq (branch n)) (mkO [] 0) = (ROk, st')
    /\ (opos st' <= 11 * n)%nat
    /\ N.of_nat n * (N.of_nat n - 1)
       <= pb_item_moves tree_env vec_cfg SzNone 0 (as_seq (branch n)) (mkO [] 0) + 4032.
Proof.
  intro Hn.
  assert (HW : pb_writing tree_env vec_cfg SzNone 0 (as_seq (branch n))).
  { pose proof (branch_bytes_length n ltac:(change (2 ^ 64) with (2 ^ 56 * 256); lia)) as HL.
    constructor; rewrite ?branch_message; try reflexivity.
    - vm_compute; repeat split; discriminate.
    - intro k. reflexivity.
    - intro k. reflexivity.
    - clear. assert (H : pwt tree_env (branch n) (PMsg 0) = true).
      { induction n as [|n IH]; [reflexivity|]. cbn [branch pwt tree_env m_fields forall2b snd forallb].
        rewrite (branch_eta n) in IH |- *. cbn [pwt tree_env m_fields] in IH. rewrite IH. reflexivity. }
      now rewrite (branch_eta n) in H.
    - change (128 ^ N.of_nat (pb_width vec_cfg)) with (2 ^ 56). lia.
    - cbn [proto_prefix app]. change (2 ^ 63) with (2 ^ 56 * 128). lia. }
  assert (Hok : ost_ok (mkO [] 0)) by (split; cbn; lia).
  pose proof (pb_output _ _ _ _ _ HW _ Hok) as HO. cbv zeta in HO. rewrite branch_message in HO. cbn [proto_prefix app] in HO.
  pose proof (pb_moves_exact _ _ _ _ _ _ HW Hok) as [_ HM].
  destruct (ser_pb_item _ _ _ _ _ _) as [r st'] eqn:E. cbn [fst] in HM.
  pose proof (branch_bytes_length n ltac:(change (2 ^ 64) with (2 ^ 56 * 256); lia)) as HL.
  assert (Hr : r = ROk).
  { apply (proj2 HO (length (branch_bytes n))); [|cbn; lia].
    split; [reflexivity|]. change (emul vec_cfg) with 3. change (ediv vec_cfg) with 2. rewrite two64_val.
    change (2 ^ 56) with 72057594037927936 in Hn. split; [lia|]. intros m Hm.
    split; [|reflexivity]. unfold can_alloc. change (alloc_ok vec_cfg m) with true. rewrite andb_true_r, two63_val. lia. }
  subst r. exists st'. split; [reflexivity|]. destruct HO as [(z & -> & Hz & _) _]. cbn [opos]. split; [lia|].
  rewrite (HM eq_refl). cbn [N.add].
  clear -Hn. 
  induction n as [|n IH]; [lia|]. rewrite branch_inside. specialize (IH ltac:(lia)).
  pose proof (branch_bytes_length n ltac:(change (2 ^ 64) with (2 ^ 56 * 256); lia)) as HL.
  set (m := N.of_nat n) in *. replace (N.of_nat (S n)) with (m + 1) by lia.
  replace (m + 1 - 1) with m by lia.
  assert (HS : (m + 1) * m = m * (m - 1) + 2 * m) by (destruct (N.eq_dec m 0) as [->|]; [reflexivity|nia]).
  unfold charge. destruct (length (branch_bytes n) <? 128)%nat eqn:E; [|lia].
  assert (HB : (m + 1) * m <= 64 * 63) by (apply N.mul_le_mono; lia). lia.
Qed.

(** Hence no factor bounds the bytes moved by the bytes written. *)
Theorem pb_moves_linear_refuted K :
  K < 2 ^ 40 ->
  exists l st', ser_pb_item tree_env vec_cfg SzNone 0 l (mkO [] 0) = (ROk, st')
    /\ K * N.of_nat (opos st') < pb_item_moves tree_env vec_cfg SzNone 0 l (mkO [] 0).
Proof.
  intro HK. set (n := N.to_nat (11 * K + 5000)).
  destruct (pb_moves_quadratic n) as (st' & E & Hp & Hm).
  { change (2 ^ 56) with 72057594037927936. change (2 ^ 40) with 1099511627776 in HK. lia. }
  exists (as_seq (branch n)), st'. split; [exact E|].
  set (m := N.of_nat n) in *. assert (Em : m = 11 * K + 5000) by lia.
  assert (H1 : K * N.of_nat (opos st') <= K * (11 * m)) by (apply N.mul_le_mono_l; lia).
  assert (H2 : m * (m - 1) = K * (11 * m) + 4999 * m) by (rewrite Em at 2; nia).
  lia.
Qed.

(** The message of the other examples; seventy nested messages, 146 bytes, with and without a varint
    as size of the whole; three hundred, 836 bytes, of which more than a hundred thousand are moved. *)
Example pb_moves_nontrivial :
  pb_writing pb_demo vec_cfg (SzFix 4) 0 pb_demo_val /\
  inside pb_demo 0 pb_demo_val = 0 /\
  length (branch_bytes 70) = 146%nat /\
  levels tree_env (branch 70) (PMsg 0) = 71 /\
  map (fun s => pb_item_moves tree_env vec_cfg s 0 (as_seq (branch 70)) (mkO [] 0)) [SzNone; SzVar 8]
  = [813; 959] /\
  length (branch_bytes 300) = 836%nat /\
  inside tree_env 0 (as_seq (branch 300)) = 113398.
Proof.
  split; [apply pb_demo_writing; now right|].
  do 5 (split; [vm_compute; reflexivity|]). vm_compute. reflexivity.
Qed.
