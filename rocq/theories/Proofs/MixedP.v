(** Protobuf messages inside ordinary data: what is written, and the safety of reading. *)

From Coq Require Import List NArith ZArith Lia Bool Arith.
From Coq Require Import ZifyBool ZifyNat ZifyN.
From Verif Require Import Base.Bytes Model.Types Model.Machine Model.Varint Model.Out Model.In Model.Protocol
  Model.Pb Model.PbNative Model.Mixed Spec.Leb128 Spec.Wire Spec.PbWire Spec.MixedWire
  Proofs.VarintP Proofs.OutP Proofs.InBase Proofs.InSafe Proofs.ProtoP Proofs.PbOut Proofs.PbParse
  Proofs.PbIn Proofs.InRound Proofs.CustomP.
Import ListNotations.
Local Open Scope N_scope.

Ltac Zify.zify_post_hook ::= Z.div_mod_to_equations.

(** A program with ordinary classes and messages: [G] has the members of the messages, too. *)
Record mixed (G : tenv) (M : nat -> bool) (P : penv) : Prop := {
  mx_same : forall k, M k = true -> forall v, wt G v (TRec k) = pwt P v (PMsg k);
  mx_env : wf_env G;
  mx_msgs : wf_penv P;
  (* otherwise containers of the message are copied as memory (C45) *)
  mx_flat : forall k, M k = true -> flat_msg P k = false
}.

(** [p] holds of all types that occur in members of ordinary classes. *)
Definition native (p : ty -> bool) (G : tenv) (M : nat -> bool) : Prop :=
  forall k, M k = false -> forallb (tall p) (t_mems G k) = true.

(** ** Types without named classes *)

Lemma menc_all_ext (f g : val -> ty -> pout) l t :
  (forall x, In x l -> f x t = g x t) -> enc_all f l t = enc_all g l t.
Proof.
  induction l as [|x l IH]; intro H; [reflexivity|]. cbn [enc_all].
  rewrite (H x), IH; auto; [|now left]. intros. apply H. now right.
Qed.

Lemma menc_many_ext (f g : val -> ty -> pout) l ms :
  (forall x m, In (x, m) (combine l ms) -> f x m = g x m) -> enc_many f l ms = enc_many g l ms.
Proof.
  revert ms; induction l as [|x l IH]; intros [|m ms] H; try reflexivity.
  cbn [enc_many]. rewrite (H x m), IH; auto; [|now left]. intros. apply H. now right.
Qed.

Lemma menc_norec G M P c v : forall t, wt G v t = true -> tall nrec t = true ->
  menc G M P c v t = enc G (fmt_of c) v t.
Proof.
  induction v as [n|l IH| |v IH|i v IH| |l|l] using val_ind'; intros t Hw Ht;
    destruct t as [w isb| |w sg zz| |si ms|k|n' t'|ts|s cg t'|s k t'|dc t'|t'|t'|ik meta alts|n'|k|s t'];
    cbn [wt] in Hw; try discriminate; try reflexivity; cbn [menc enc tall nrec andb] in *;
    try discriminate.
  - rewrite Forall_forall in IH. apply menc_many_ext. intros x m Hin. apply IH.
    + eapply in_combine_l; eauto.
    + eapply (forall2b_in (fun x m => wt G x m)); eauto.
    + eapply in_combine_forallb; eauto.
  - rewrite Forall_forall in IH. apply andb_true_iff in Hw as [_ Hw]. rewrite forallb_forall in Hw.
    apply menc_all_ext. auto.
  - rewrite Forall_forall in IH. apply menc_many_ext. intros x m Hin. apply IH.
    + eapply in_combine_l; eauto.
    + eapply (forall2b_in (fun x m => wt G x m)); eauto.
    + eapply in_combine_forallb; eauto.
  - rewrite Forall_forall in IH. rewrite forallb_forall in Hw. f_equal. apply menc_all_ext. auto.
  - rewrite Forall_forall in IH. apply andb_true_iff in Hw as [Hw _]. rewrite forallb_forall in Hw.
    f_equal. apply menc_all_ext. auto.
  - rewrite Forall_forall in IH. rewrite forallb_forall in Hw. f_equal. apply menc_all_ext. auto.
  - rewrite IH; auto.
  - rewrite IH; auto.
  - auto.
  - destruct (nth_error alts i) as [t'|] eqn:Ea; [|discriminate].
    destruct (nth_error meta i) as [[id dc]|]; [|reflexivity].
    rewrite IH; auto. rewrite forallb_forall in Ht. apply Ht. eapply nth_error_In; eauto.
Qed.

(** ** Output *)

Lemma emits_pemits_fst c a p : emits c false a p -> snd p = true -> pemits c a (fst p).
Proof. destruct p as [e b]. cbn [fst snd]. intros H ->. now apply emits_pemits. Qed.

Lemma pseq_true a b :
  snd (pseq a b) = true -> snd a = true /\ snd b = true /\ fst (pseq a b) = fst a ++ fst b.
Proof. unfold pseq. destruct a as [ea []]; cbn [fst snd]; auto. discriminate. Qed.

Lemma pemits_pseq c a1 a2 p1 p2 :
  (snd p1 = true -> pemits c a1 (fst p1)) -> (snd p2 = true -> pemits c a2 (fst p2)) ->
  snd (pseq p1 p2) = true -> pemits c (a1 ;; a2) (fst (pseq p1 p2)).
Proof. intros H1 H2 H. apply pseq_true in H as (S1 & S2 & ->). apply pemits_seq; auto. Qed.

Lemma pemits_many (f : val -> ty -> act) (g : val -> ty -> pout) c l ms :
  (forall x m, In (x, m) (combine l ms) -> snd (g x m) = true -> pemits c (f x m) (fst (g x m))) ->
  length l = length ms ->
  snd (enc_many g l ms) = true -> pemits c (ser_many f l ms) (fst (enc_many g l ms)).
Proof.
  revert ms; induction l as [|x l IH]; intros [|m ms] H HL Hs; try discriminate; cbn [ser_many enc_many] in *.
  - apply pemits_ret.
  - apply pemits_pseq; auto; [apply H; now left|]. apply IH; auto. intros. apply H; auto. now right.
Qed.

Lemma pemits_all (f : val -> ty -> act) (g : val -> ty -> pout) c l t :
  (forall x, In x l -> snd (g x t) = true -> pemits c (f x t) (fst (g x t))) ->
  snd (enc_all g l t) = true -> pemits c (ser_all f l t) (fst (enc_all g l t)).
Proof.
  induction l as [|x l IH]; intros H Hs; cbn [ser_all enc_all] in *.
  - apply pemits_ret.
  - apply pemits_pseq; auto; [apply H; now left|]. apply IH. intros. apply H; auto. now right.
Qed.

(** The lengths in a message and of the message can be represented. *)
Definition message_fits (P : penv) (c : cfg) (k : nat) (l : list val) : bool :=
  let n := N.of_nat (length (message_bytes P k l)) in
  (n <? 128 ^ N.of_nat (pb_width c)) &&
  match dsize c with SzVar w => n <? 128 ^ N.of_nat w | _ => true end.

Section Emits.
  Variables (G : tenv) (M : nat -> bool) (P : penv) (c : cfg).
  Hypothesis (HM : mixed G M P) (HR : rep_numbers P) (Hsz : wfsz (Some (dsize c)) = true).
  Hypothesis (Hlo : little_out (pb_ocfg c)) (Hszok : szok c = true).
  Hypothesis (Hpl : native elem_ok G M) (Hnb : native not_bitset G M).
  Notation fits := (messages (message_fits P c) G M).

  Let HG : wf_env G := mx_env _ _ _ HM.

  Theorem mser_pemits v : forall t,
    wt G v t = true -> wf G t = true -> plain t = true -> tall not_bitset t = true ->
    fits v t = true -> snd (menc G M P c v t) = true ->
    pemits c (mser G M P c v t) (fst (menc G M P c v t)).
  Proof.
    induction v as [n|l IH| |v IH|i v IH| |l|l] using val_ind';
      intros t Hwt Hwf Hp Hn Hf Hs;
      destruct t as [w isb| |w sg zz| |si ms|k|n' t'|ts|s cg t'|s k t'|dc t'|t'|t'|ik meta alts|n'|k|s t'];
      cbn [wt] in Hwt; try discriminate; try (destruct k as [s|nv|]; discriminate).
    - (* scalar *) cbn [mser menc fst pdone]. rewrite scalar_bytes_wscalar. apply emits_pemits, emits_put.
    - (* bool *) cbn [mser menc fst pdone]. rewrite scalar_bytes_wscalar. apply emits_pemits, emits_put.
    - (* varint *) cbn [mser menc fst pdone wf] in *. apply N.ltb_lt in Hwt.
      apply emits_pemits. now apply emits_varint.
    - (* empty *) destruct l; [|discriminate]. cbn [mser menc fst pnil]. apply pemits_ret.
    - (* struct *)
      cbn [mser]. destruct (negb (s_expl si) && is_empty (TStruct si ms)) eqn:Eem.
      { apply andb_true_iff in Eem as [_ Eem]. destruct ms; [|discriminate].
        destruct l; [|discriminate]. apply pemits_ret. }
      destruct (as_bytes c (TStruct si ms)) eqn:Eab.
      { rewrite menc_norec in *; auto; try (eapply bytes_nrec; exact Eab).
        rewrite (objrep_enc G c (VSeq l) (TStruct si ms)); auto.
        - apply emits_pemits, emits_put_bytes.
        - destruct ms; [|reflexivity].
          unfold as_bytes in Eab. cbn in Eab. rewrite !andb_false_r in Eab. discriminate. }
      cbn [menc messages] in *.
      cbn [wf] in Hwf. rewrite !andb_true_iff in Hwf. destruct Hwf as [[_ Hwf] _].
      unfold plain in Hp. cbn [tall elem_ok not_bitset andb] in Hp, Hn.
      apply pemits_many; auto; [|eapply forall2b_length; eauto].
      intros x m Hin Hsx. rewrite Forall_forall in IH.
      apply IH; auto; try (eapply in_combine_forallb; eassumption).
      + eapply in_combine_l; eauto.
      + eapply (forall2b_in (fun x m => wt G x m)); eauto.
      + eapply (forall2b_in (fun x m => fits x m)); eauto.
    - (* named class *)
      cbn [mser menc messages] in *. destruct (M k) eqn:Em.
      + cbn [pdone fst]. unfold message_fits in Hf. apply andb_true_iff in Hf as [F1 F2].
        apply pemits_pb_item; auto.
        * now destruct HM.
        * rewrite <- (mx_same _ _ _ HM k Em). exact Hwt.
        * now apply N.ltb_lt.
        * destruct (dsize c); cbn [size_fits]; auto. now apply N.ltb_lt.
      + destruct (HG k) as [Hwk _]. pose proof (Hpl k Em) as Hpk. pose proof (Hnb k Em) as Hnk.
        apply pemits_many; auto; [|eapply forall2b_length; eauto].
        intros x m Hin Hsx. rewrite Forall_forall in IH.
        apply IH; auto; try (eapply in_combine_forallb; eassumption).
        * eapply in_combine_l; eauto.
        * eapply (forall2b_in (fun x m => wt G x m)); eauto.
        * eapply (forall2b_in (fun x m => fits x m)); eauto.
    - (* array *)
      cbn [mser]. unfold plain in Hp. cbn [tall elem_ok not_bitset andb] in Hp, Hn.
      apply andb_true_iff in Hp as [He Hp]. apply negb_true_iff in He.
      cbn [wf] in Hwf. apply andb_true_iff in Hwf as [Hn0 Hwf].
      apply andb_true_iff in Hwt as [Hlen Hwt]. rewrite forallb_forall in Hwt.
      rewrite Forall_forall in IH. cbn [menc messages objrep] in *.
      destruct (as_bytes c t') eqn:Eab.
      + assert (E : enc_all (menc G M P c) l t' = pdone (flat_map (fun x => objrep c x t') l)).
        { rewrite (menc_all_ext _ (enc G (fmt_of c))).
          - apply enc_all_bytes. rewrite Forall_forall. intros x Hin. apply objrep_enc; auto.
          - intros x Hin. apply menc_norec; auto. eapply bytes_nrec; eauto. }
        rewrite E. apply emits_pemits, emits_put_bytes.
      + rewrite forallb_forall in Hf. apply pemits_all; auto.
    - (* tuple *)
      cbn [mser menc messages wf] in *. unfold plain in Hp. cbn [tall elem_ok not_bitset andb] in Hp, Hn.
      apply pemits_many; auto; [|eapply forall2b_length; eauto].
      intros x m Hin Hsx. rewrite Forall_forall in IH.
      apply IH; auto; try (eapply in_combine_forallb; eassumption).
      + eapply in_combine_l; eauto.
      + eapply (forall2b_in (fun x m => wt G x m)); eauto.
      + eapply (forall2b_in (fun x m => fits x m)); eauto.
    - (* vector *)
      cbn [mser menc messages] in *.
      unfold plain in Hp. cbn [tall elem_ok not_bitset andb] in Hp, Hn.
      apply andb_true_iff in Hp as [He Hp]. apply negb_true_iff in He.
      cbn [wf] in Hwf. apply andb_true_iff in Hwf as [Hs0 Hwf].
      rewrite forallb_forall in Hwt, Hf. rewrite Forall_forall in IH.
      apply pemits_pseq; auto; [intros _; apply emits_pemits; now apply emits_size|]. intro Hsl.
      destruct (as_bytes c t') eqn:Eab; [destruct cg|]; cbn [andb]; try (apply pemits_all; auto; fail).
      assert (E : enc_all (menc G M P c) l t' = pdone (flat_map (fun x => objrep c x t') l)).
      { rewrite (menc_all_ext _ (enc G (fmt_of c))).
        - apply enc_all_bytes. rewrite Forall_forall. intros x Hin. apply objrep_enc; auto.
        - intros x Hin. apply menc_norec; auto. eapply bytes_nrec; eauto. }
      rewrite E. apply emits_pemits, emits_put_bytes.
    - (* associative *)
      cbn [mser menc messages] in *.
      unfold plain in Hp. cbn [tall elem_ok not_bitset andb] in Hp, Hn.
      cbn [wf] in Hwf. apply andb_true_iff in Hwf as [Hs0 Hwf].
      apply andb_true_iff in Hwt as [Hwt _].
      rewrite forallb_forall in Hwt, Hf. rewrite Forall_forall in IH.
      apply pemits_pseq; auto; [intros _; apply emits_pemits; now apply emits_size|].
      apply pemits_all; auto.
    - (* span *)
      cbn [mser menc messages] in *.
      unfold plain in Hp. cbn [tall elem_ok not_bitset andb] in Hp, Hn.
      apply andb_true_iff in Hp as [He Hp]. apply negb_true_iff in He.
      cbn [wf] in Hwf. apply andb_true_iff in Hwf as [Hs0 Hwf].
      rewrite forallb_forall in Hwt, Hf. rewrite Forall_forall in IH.
      apply pemits_pseq; auto; [intros _; apply emits_pemits; now apply emits_size|]. intro Hsl.
      destruct (as_bytes c t') eqn:Eab; try (apply pemits_all; auto; fail).
      assert (E : enc_all (menc G M P c) l t' = pdone (flat_map (fun x => objrep c x t') l)).
      { rewrite (menc_all_ext _ (enc G (fmt_of c))).
        - apply enc_all_bytes. rewrite Forall_forall. intros x Hin. apply objrep_enc; auto.
        - intros x Hin. apply menc_norec; auto. eapply bytes_nrec; eauto. }
      rewrite E. apply emits_pemits, emits_put_bytes.
    - (* no optional *) cbn [mser menc fst pdone]. unfold ser_flag. rewrite scalar_bytes_wscalar, wscalar_1.
      apply emits_pemits, emits_put.
    - cbn [mser menc fst pdone]. unfold ser_flag. rewrite scalar_bytes_wscalar, wscalar_1.
      apply emits_pemits, emits_put.
    - (* optional *) cbn [mser menc messages wf] in *. unfold plain in Hp. cbn [tall elem_ok not_bitset andb] in Hp, Hn.
      apply pemits_pseq; auto. intros _.
      unfold ser_flag. rewrite scalar_bytes_wscalar, wscalar_1. apply emits_pemits, emits_put.
    - (* optional_ptr *) cbn [mser menc messages wf] in *. unfold plain in Hp. cbn [tall elem_ok not_bitset andb] in Hp, Hn.
      apply pemits_pseq; auto. intros _.
      unfold ser_flag. rewrite scalar_bytes_wscalar, wscalar_1. apply emits_pemits, emits_put.
    - (* pointer *) cbn [mser menc messages wf] in *. unfold plain in Hp. cbn [tall elem_ok not_bitset andb] in Hp, Hn. auto.
    - (* variant *)
      cbn [mser menc messages] in *. destruct (nth_error alts i) as [t'|] eqn:Ei; [|discriminate].
      cbn [wf] in Hwf. rewrite !andb_true_iff in Hwf.
      destruct Hwf as [[[[_ Hlen] _] Hids] Hwf]. apply Nat.eqb_eq in Hlen.
      assert (Hi : (i < length meta)%nat).
      { rewrite Hlen. apply nth_error_Some. congruence. }
      destruct (nth_error meta i) as [[id dc]|] eqn:Em; [|apply nth_error_None in Em; lia].
      pose proof (nth_error_In _ _ Ei) as Hin.
      unfold plain in Hp. cbn [tall elem_ok not_bitset andb] in Hp, Hn.
      rewrite forallb_forall in Hwf, Hp, Hn.
      apply pemits_pseq; auto. intros _.
      apply emits_pemits. unfold ser_id, wire_id. destruct ik as [w|m].
      + rewrite scalar_bytes_wscalar. apply emits_put.
      + apply emits_put_bytes.
    - (* views *)
      destruct k as [s|m|]; cbn [mser menc fst pdone wf] in *.
      + apply pemits_seq; [apply emits_pemits; now apply emits_size|apply emits_pemits, emits_put_bytes].
      + apply emits_pemits, emits_put_bytes.
      + apply emits_pemits, emits_put_bytes.
  Qed.
End Emits.

(** ** Reading *)

Section Safe.
  Variables (G : tenv) (M : nat -> bool) (P : penv) (c : cfg) (data : list byte) (pf : nat) (ub : bool).
  Hypothesis (HM : mixed G M P) (Hds : wfsz (Some (dsize c)) = true) (Hsm : small data).
  Hypothesis (Hpf : (length data < pf)%nat) (HcP : pcmp_env P).
  Hypothesis Hub : forall k, forallb (fun fd => ub || no_bool (snd fd)) (m_fields (P k)) = true.
  Hypothesis Hcmp : forall k, M k = false -> Forall (tallP (cmp_ok G)) (t_mems G k).
  Hypothesis Hfl : native (flagged ub true) G M.

  Lemma mdes_rec_safe fuel : forall k, safe_f G data ub true (TRec k) (mdes_rec G M P c data pf fuel k).
  Proof.
    assert (Hmsg : forall k prior pos, M k = true -> (pos <= length data)%nat -> wt G prior (TRec k) = true ->
              safe_out G data ub true (TRec k) pos (des_pb_item P c data pf (dsize c) k prior pos)).
    { intros k prior pos Em Hp Hw. rewrite (mx_same _ _ _ HM k Em) in Hw.
      pose proof (des_pb_item_safe P c ub data pf (dsize c) k prior pos (mx_msgs _ _ _ HM) HcP Hub Hds Hsm Hp
        ltac:(lia) Hw) as S.
      destruct (des_pb_item _ _ _ _ _ _ _ _) as [[r v] p]. cbn [safe_out].
      destruct S as (S1 & S2 & S3 & S4). rewrite (mx_same _ _ _ HM k Em). split; [exact S1|].
      split; [exact S2|]. split; auto. }
    induction fuel as [|f IH]; intros k prior pos Hp Hw; cbn [mdes_rec]; destruct (M k) eqn:Em; auto.
    - cbn [safe_out]. split; [lia|]. split; auto. split; [discriminate|auto].
    - destruct prior; try discriminate. cbn [wt as_seq] in *.
      assert (HF : Forall (fun m => safe_f G data ub true m (des_ty G c data (mdes_rec G M P c data pf f) m)) (t_mems G k)).
      { rewrite Forall_forall. intros m Hin. apply des_ty_safe; auto.
        - now destruct HM.
        - destruct (mx_env _ _ _ HM k) as [Hwk _]. rewrite forallb_forall in Hwk. auto.
        - specialize (Hfl k Em). rewrite forallb_forall in Hfl. auto.
        - specialize (Hcmp k Em). rewrite Forall_forall in Hcmp. auto. }
      pose proof (des_many_safe G data ub true _ _ HF l pos Hp Hw) as S.
      unfold seq_res. destruct (des_many _ _ _ _) as [[r l'] p]. exact S.
  Qed.

  Theorem mdes_safe fuel t :
    wf G t = true -> tall (flagged ub true) t = true -> tallP (cmp_ok G) t ->
    safe_f G data ub true t (mdes G M P c data pf fuel t).
  Proof.
    intros. unfold mdes. apply des_ty_safe; auto; [now destruct HM|]. intros k _. apply mdes_rec_safe.
  Qed.
End Safe.

(** ** The classes of a program *)

(** Messages in messages are messages. *)
Fixpoint closed (M : nat -> bool) (t : pty) : bool :=
  match t with
  | PMsg k | PMsgs _ k => M k
  | PMap _ kt vt => closed M kt && closed M vt
  | _ => true
  end.

Lemma wt_elems G ck t l : wt G (VSeq l) (elems_ty ck t) = forallb (fun x => wt G x t) l && ckok ck l.
Proof. destruct ck; cbn [elems_ty wt ckok]; [now rewrite andb_true_r|reflexivity]. Qed.

Lemma forallb_same {A} (f g : A -> bool) l : (forall x, In x l -> f x = g x) -> forallb f l = forallb g l.
Proof.
  induction l as [|x l IH]; intro H; [reflexivity|]. cbn [forallb].
  rewrite (H x), IH; auto; [|now left]. intros. apply H. now right.
Qed.

Lemma elems_not G ck t v : (forall l, v <> VSeq l) -> wt G v (elems_ty ck t) = false.
Proof. intro H. destruct v as [|l| | | | | |], ck; cbn [elems_ty wt]; try reflexivity; now destruct (H l). Qed.

Section Classes.
  Variables (G0 : tenv) (M : nat -> bool) (P : penv).
  Notation G := (classes G0 M P).
  Hypothesis Hcl : forall k, M k = true -> forallb (fun fd => closed M (snd fd)) (m_fields (P k)) = true.

  Lemma members_same l k :
    M k = true ->
    Forall (fun x => forall t, closed M t = true -> wt G x (member_ty t) = pwt P x t) l ->
    forall2b (fun x m => wt G x m) l (t_mems G k) = forall2b (fun x fd => pwt P x (snd fd)) l (m_fields (P k)).
  Proof.
    intros Em. cbn [classes t_mems]. rewrite Em. specialize (Hcl k Em). revert Hcl.
    generalize (m_fields (P k)). intros fds Hc H. revert fds Hc.
    induction H as [|x l Hx _ IH]; intros [|fd fds] Hc; try reflexivity.
    cbn [forallb map forall2b] in *. apply andb_true_iff in Hc as [C1 C2]. rewrite Hx, IH; auto.
  Qed.

  Lemma member_same v : forall t, closed M t = true -> wt G v (member_ty t) = pwt P v t.
  Proof.
    assert (Hh : forall n v, (height v < n)%nat -> forall t, closed M t = true -> wt G v (member_ty t) = pwt P v t).
    2:{ exact (Hh (S (height v)) v (Nat.lt_succ_diag_r _)). }
    clear v. induction n as [|n IH]; intros v Hv; [lia|].
    assert (Hin : forall l x, v = VSeq l -> In x l -> forall t, closed M t = true -> wt G x (member_ty t) = pwt P x t).
    { intros l x -> Hx. apply IH. pose proof (height_in _ _ Hx). lia. }
    intros t Hc. destruct t; cbn [member_ty closed] in *;
      try (destruct v as [m|l| |v'|i v'| |l|l]; try reflexivity; try (now destruct ck); fail).
    - (* message *)
      destruct v as [m|l| |v'|i v'| |l|l]; try reflexivity.
      cbn [wt pwt]. apply members_same; auto. rewrite Forall_forall. eauto.
    - destruct v as [m|l| |v'|i v'| |l|l]; try (rewrite elems_not by discriminate; reflexivity).
      rewrite wt_elems. cbn [pwt]. f_equal. apply forallb_same. intros x _. now destruct x.
    - destruct v as [m|l| |v'|i v'| |l|l]; try (rewrite elems_not by discriminate; reflexivity).
      rewrite wt_elems. cbn [pwt]. f_equal. apply forallb_same. intros x _. now destruct x.
    - destruct v as [m|l| |v'|i v'| |l|l]; try (rewrite elems_not by discriminate; reflexivity).
      rewrite wt_elems. cbn [pwt]. f_equal. apply forallb_same. intros x _. destruct x; try reflexivity.
      cbn [wt]. apply forallb_same. intros y _. now destruct y.
    - destruct v as [m|l| |v'|i v'| |l|l]; try (rewrite elems_not by discriminate; reflexivity).
      rewrite wt_elems. cbn [pwt]. f_equal. apply forallb_same. intros x Hx.
      rewrite (Hin l x eq_refl Hx (PMsg k) Hc : wt G x (TRec k) = _). now destruct x.
    - (* map *)
      destruct v as [m|l| |v'|i v'| |l|l]; try reflexivity. cbn [wt pwt]. f_equal.
      apply andb_true_iff in Hc as [C1 C2].
      apply forallb_same. intros x Hx. pose proof (height_in _ _ Hx) as Hhx.
      destruct x as [|[|a [|b [|]]]| | | | | |]; try reflexivity; cbn [wt forall2b].
      + now rewrite andb_false_r.
      + pose proof (height_in [a; b] a (or_introl eq_refl)).
        pose proof (height_in [a; b] b (or_intror (or_introl eq_refl))).
        rewrite (IH a), (IH b), andb_true_r by (auto; lia). reflexivity.
      + now rewrite !andb_false_r.
    - destruct v as [m|l| |v'|i v'| |l|l]; try reflexivity. cbn [wt pwt]. f_equal.
      apply forallb_same. intros x _. now destruct x.
  Qed.

  Lemma member_wf t : wfp t = true -> wf G (member_ty t) = true.
  Proof.
    assert (W : forall w, wfw w = true -> ((0 <? w)%nat && (negb false || (w =? 1)%nat)) = true).
    { intros w Hw. destruct w; [discriminate|reflexivity]. }
    induction t; cbn [wfp member_ty]; intro H; auto;
      try (destruct ck; cbn [elems_ty wf wfsz andb]; auto; fail).
    - cbn [wf]. destruct w; [discriminate|reflexivity].
    - apply andb_true_iff in H as [H1 H2]. cbn [wf wfsz andb forallb]. now rewrite IHt1, IHt2.
    - apply andb_true_iff in H as [H1 H2]. cbn [wf]. rewrite H1, W; auto.
  Qed.

  Theorem classes_mixed :
    (forall k, M k = false -> forallb (wf G) (t_mems G0 k) = true
                              /\ wt G (s_dflt (t_info G0 k)) (TRec k) = true) ->
    wf_penv P -> (forall k, M k = true -> flat_msg P k = false) ->
    mixed G M P.
  Proof.
    intros HG HP Hfl. constructor; auto.
    - intros k Em v. apply (member_same v (PMsg k)). exact Em.
    - intro k. destruct (M k) eqn:Em.
      + pose proof (HP k) as Hk. unfold wf_pmsg in Hk. rewrite !andb_true_iff in Hk.
        destruct Hk as [[[[[Hw _] _] _] _] Hd]. split.
        * cbn [classes t_mems]. rewrite Em. rewrite forallb_forall in *. intros t Hin.
          apply in_map_iff in Hin as (fd & <- & Hin). apply member_wf. auto.
        * cbn [classes t_info]. rewrite Em. cbn [s_dflt].
          rewrite <- Hd. apply (member_same _ (PMsg k)). exact Em.
      + destruct (HG k Em) as [H1 H2]. cbn [classes t_mems t_info]. rewrite Em. auto.
  Qed.
End Classes.
