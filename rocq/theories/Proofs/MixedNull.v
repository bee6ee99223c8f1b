(** Null pointers and valueless variants around messages. *)

From Coq Require Import List NArith ZArith Lia Bool Arith.
From Coq Require Import ZifyBool ZifyNat ZifyN.
From Verif Require Import Base.Bytes Model.Types Model.Machine Model.Varint Model.Out Model.In Model.Protocol
  Model.Pb Model.PbNative Model.Mixed Spec.Leb128 Spec.Wire Spec.PbWire Spec.MixedWire
  Proofs.VarintP Proofs.OutP Proofs.InBase Proofs.InSafe Proofs.ProtoP Proofs.PbOut Proofs.PbParse
  Proofs.PbIn Proofs.InRound Proofs.CustomP Proofs.MixedP.
Import ListNotations.
Local Open Scope N_scope.

Ltac Zify.zify_post_hook ::= Z.div_mod_to_equations.

(** [pemits] for output that may stop at a null pointer: what comes before it is written. *)
Definition pstops (c : cfg) (a : act) (p : pout) : Prop :=
  wf_out c -> N.of_nat (length (fst p)) < 2 ^ 63 ->
  forall st, ost_ok st ->
  let '(r, st') := a st in
  match r with
  | ROk => snd p = true /\ wrote_exactly c st (fst p) st'
  | RErr invalid_argument => snd p = false /\ wrote_exactly c st (fst p) st'
  | RErr result_out_of_range =>
      growable c = false /\ framed c st st' /\ (length (obuf st) - opos st < length (fst p))%nat
  | RErr no_buffer_space | RThrow => growable c = true /\ framed c st st'
  | _ => False
  end /\
  (forall E, rich c E -> (opos st + length (fst p) <= E)%nat -> r = final p).

Lemma pemits_pstops c a e : pemits c a e -> pstops c a (pdone e).
Proof.
  intros H Hwf Hl st Hok. specialize (H Hwf Hl st Hok). destruct (a st) as [r st'].
  destruct H as [H HR]. cbn [fst snd pdone final]. split; [|exact HR].
  destruct r as [|[]| | |]; auto; contradiction.
Qed.

Lemma emits_pstops c a p : emits c false a p -> pstops c a p.
Proof.
  intros H Hwf Hl st Hok. specialize (H Hwf Hl st Hok ltac:(discriminate)).
  destruct (a st) as [r st']. destruct H as [(e1 & e2 & k & F1 & F2 & F3 & F4 & F5) HR].
  split; [|exact HR].
  assert (HF : framed c st st').
  { exists k, e1. subst st'. cbn [obuf opos]. repeat split; auto; lia. }
  destruct r as [|[]| | |]; try tauto;
    destruct F5 as [-> F5]; rewrite app_nil_r in F1; (split; [exact F5|]); exists k; rewrite F1; auto.
Qed.

Lemma pstops_ret c : pstops c ret pnil.
Proof. apply emits_pstops, emits_ret. Qed.

Lemma pstops_seq c a1 a2 p1 p2 : pstops c a1 p1 -> pstops c a2 p2 -> pstops c (a1 ;; a2) (pseq p1 p2).
Proof.
  intros H1 H2 Hwf Hl st Hok. destruct p1 as [e1 [|]].
  2:{ cbn [pseq] in *. specialize (H1 Hwf Hl st Hok). unfold seq. destruct (a1 st) as [r1 st1].
      destruct H1 as [O1 R1]. cbn [fst snd] in *. destruct r1; try (split; assumption).
      destruct O1; discriminate. }
  destruct p2 as [e2 b2]. unfold pseq in *. cbn [fst snd] in *. rewrite app_length in *.
  specialize (H1 Hwf). specialize (H1 ltac:(cbn [fst]; lia) st Hok). unfold seq. destruct (a1 st) as [r1 st1].
  destruct H1 as [O1 R1]. unfold final in *. cbn [fst snd] in *.
  assert (HR : r1 <> ROk -> forall E, rich c E -> (opos st + (length e1 + length e2) <= E)%nat ->
     r1 = (if b2 then ROk else RErr invalid_argument)).
  { intros Hr E HE HE2. exfalso. apply Hr, (R1 E HE). lia. }
  destruct r1 as [|[]| | |]; try tauto.
  - destruct O1 as [_ O1]. pose proof (wrote_ok c st e1 st1 Hok O1) as Hok1.
    specialize (H2 Hwf). specialize (H2 ltac:(cbn [fst]; lia) st1 Hok1).
    destruct (a2 st1) as [r2 st2]. destruct H2 as [O2 R2]. unfold final in *. cbn [fst snd] in *.
    assert (Hfit : opos st1 = (opos st + length e1)%nat)
      by (destruct O1 as (k & -> & _); reflexivity).
    split.
    + assert (K : forall b, b2 = b /\ wrote_exactly c st1 e2 st2 -> b2 = b /\ wrote_exactly c st (e1 ++ e2) st2).
      { intros b [? ?]. split; auto. eapply wrote_seq; eauto. }
      assert (K' : growable c = true /\ framed c st1 st2 -> growable c = true /\ framed c st st2).
      { intros (Hg & HF). split; [exact Hg|]. eapply wrote_framed; eauto. }
      destruct r2 as [|[]| | |]; auto.
      destruct O2 as (Hg & HF & Hs). split; [exact Hg|]. split; [eapply wrote_framed; eauto|].
      destruct O1 as (k & -> & Hk & [->|(Hg' & _)]); [|congruence].
      cbn [obuf opos] in Hs.
      rewrite overwrite_length in Hs by (rewrite app_length, zeros_length; lia).
      rewrite app_length, zeros_length in Hs. lia.
    + intros E HE HE2. apply (R2 E HE). lia.
  - split; [|apply HR; discriminate]. destruct O1 as (Hg & HF & Hs). repeat split; auto. lia.
  - split; [|apply HR; discriminate]. exact O1.
  - exfalso. destruct O1; discriminate.
  - split; [|apply HR; discriminate]. exact O1.
Qed.

Lemma pstops_done_seq c a1 a2 e1 e2 :
  pstops c a1 (pdone e1) -> pstops c a2 (pdone e2) -> pstops c (a1 ;; a2) (pdone (e1 ++ e2)).
Proof. exact (pstops_seq c a1 a2 (pdone e1) (pdone e2)). Qed.

Lemma pstops_null c : pstops c (fail (RErr invalid_argument)) ([], false).
Proof. apply emits_pstops, emits_refuse. Qed.

Lemma pstops_many (f : val -> ty -> act) (g : val -> ty -> pout) c l ms :
  (forall x m, In (x, m) (combine l ms) -> pstops c (f x m) (g x m)) ->
  length l = length ms -> pstops c (ser_many f l ms) (enc_many g l ms).
Proof.
  revert ms; induction l as [|x l IH]; intros [|m ms] H HL; try discriminate; cbn [ser_many enc_many] in *.
  - apply pstops_ret.
  - apply pstops_seq; [apply H; now left|]. apply IH; auto. intros. apply H; auto. now right.
Qed.

Lemma pstops_all (f : val -> ty -> act) (g : val -> ty -> pout) c l t :
  (forall x, In x l -> pstops c (f x t) (g x t)) -> pstops c (ser_all f l t) (enc_all g l t).
Proof.
  induction l as [|x l IH]; intro H; cbn [ser_all enc_all] in *.
  - apply pstops_ret.
  - apply pstops_seq; [apply H; now left|]. apply IH. intros. apply H; auto. now right.
Qed.

Section Emits.
  Variables (G : tenv) (M : nat -> bool) (P : penv) (c : cfg).
  Hypothesis (HM : mixed G M P) (HR : rep_numbers P) (Hsz : wfsz (Some (dsize c)) = true).
  Hypothesis (Hlo : little_out (pb_ocfg c)) (Hszok : szok c = true).
  Hypothesis (Hpl : native elem_ok G M) (Hnb : native not_bitset G M).
  Notation fits := (messages (message_fits P c) G M).

  Let HG : wf_env G := mx_env _ _ _ HM.

  Theorem mser_pstops v : forall t,
    wt G v t = true -> wf G t = true -> plain t = true -> tall not_bitset t = true ->
    fits v t = true ->
    pstops c (mser G M P c v t) (menc G M P c v t).
  Proof.
    induction v as [n|l IH| |v IH|i v IH| |l|l] using val_ind';
      intros t Hwt Hwf Hp Hn Hf;
      destruct t as [w isb| |w sg zz| |si ms|k|n' t'|ts|s cg t'|s k t'|dc t'|t'|t'|ik meta alts|n'|k|s t'];
      cbn [wt] in Hwt; try discriminate; try (destruct k as [s|nv|]; discriminate).
    - (* scalar *) cbn [mser menc]. rewrite scalar_bytes_wscalar. apply emits_pstops, emits_put.
    - (* bool *) cbn [mser menc]. rewrite scalar_bytes_wscalar. apply emits_pstops, emits_put.
    - (* varint *) cbn [mser menc wf] in *. apply N.ltb_lt in Hwt.
      apply emits_pstops. now apply emits_varint.
    - (* empty *) destruct l; [|discriminate]. cbn [mser menc]. apply pstops_ret.
    - (* struct *)
      cbn [mser]. destruct (negb (s_expl si) && is_empty (TStruct si ms)) eqn:Eem.
      { apply andb_true_iff in Eem as [_ Eem]. destruct ms; [|discriminate].
        destruct l; [|discriminate]. apply pstops_ret. }
      destruct (as_bytes c (TStruct si ms)) eqn:Eab.
      { rewrite menc_norec in *; auto; try (eapply bytes_nrec; exact Eab).
        rewrite (objrep_enc G c (VSeq l) (TStruct si ms)); auto.
        - apply emits_pstops, emits_put_bytes.
        - destruct ms; [|reflexivity].
          unfold as_bytes in Eab. cbn in Eab. rewrite !andb_false_r in Eab. discriminate. }
      cbn [menc messages] in *.
      cbn [wf] in Hwf. rewrite !andb_true_iff in Hwf. destruct Hwf as [[_ Hwf] _].
      unfold plain in Hp. cbn [tall elem_ok not_bitset andb] in Hp, Hn.
      apply pstops_many; auto; [|eapply forall2b_length; eauto].
      intros x m Hin. rewrite Forall_forall in IH.
      apply IH; auto; try (eapply in_combine_forallb; eassumption).
      + eapply in_combine_l; eauto.
      + eapply (forall2b_in (fun x m => wt G x m)); eauto.
      + eapply (forall2b_in (fun x m => fits x m)); eauto.
    - (* named class *)
      cbn [mser menc messages] in *. destruct (M k) eqn:Em.
      + unfold message_fits in Hf. apply andb_true_iff in Hf as [F1 F2].
        apply pemits_pstops, pemits_pb_item; auto.
        * now destruct HM.
        * rewrite <- (mx_same _ _ _ HM k Em). exact Hwt.
        * now apply N.ltb_lt.
        * destruct (dsize c); cbn [size_fits]; auto. now apply N.ltb_lt.
      + destruct (HG k) as [Hwk _]. pose proof (Hpl k Em) as Hpk. pose proof (Hnb k Em) as Hnk.
        apply pstops_many; auto; [|eapply forall2b_length; eauto].
        intros x m Hin. rewrite Forall_forall in IH.
        apply IH; auto; try (eapply in_combine_forallb; eassumption).
        * eapply in_combine_l; eauto.
        * eapply (forall2b_in (fun x m => wt G x m)); eauto.
        * eapply (forall2b_in (fun x m => fits x m)); eauto.
    - (* array *)
      cbn [mser]. unfold plain in Hp. cbn [tall elem_ok not_bitset andb] in Hp, Hn.
      apply andb_true_iff in Hp as [He Hp]. apply negb_true_iff in He.
      cbn [wf] in Hwf. apply andb_true_iff in Hwf as [Hn0 Hwf].
      apply andb_true_iff in Hwt as [Hlen Hwt]. rewrite forallb_forall in Hwt.
      rewrite Forall_forall in IH. cbn [menc messages objrep] in *.
      destruct (as_bytes c t') eqn:Eab.
      + assert (E : enc_all (menc G M P c) l t' = pdone (flat_map (fun x => objrep c x t') l)).
        { rewrite (menc_all_ext _ (enc G (fmt_of c))).
          - apply enc_all_bytes. rewrite Forall_forall. intros x Hin. apply objrep_enc; auto.
          - intros x Hin. apply menc_norec; auto. eapply bytes_nrec; eauto. }
        rewrite E. apply emits_pstops, emits_put_bytes.
      + rewrite forallb_forall in Hf. apply pstops_all; auto.
    - (* tuple *)
      cbn [mser menc messages wf] in *. unfold plain in Hp. cbn [tall elem_ok not_bitset andb] in Hp, Hn.
      apply pstops_many; auto; [|eapply forall2b_length; eauto].
      intros x m Hin. rewrite Forall_forall in IH.
      apply IH; auto; try (eapply in_combine_forallb; eassumption).
      + eapply in_combine_l; eauto.
      + eapply (forall2b_in (fun x m => wt G x m)); eauto.
      + eapply (forall2b_in (fun x m => fits x m)); eauto.
    - (* vector *)
      cbn [mser menc messages] in *.
      unfold plain in Hp. cbn [tall elem_ok not_bitset andb] in Hp, Hn.
      apply andb_true_iff in Hp as [He Hp]. apply negb_true_iff in He.
      cbn [wf] in Hwf. apply andb_true_iff in Hwf as [Hs0 Hwf].
      rewrite forallb_forall in Hwt, Hf. rewrite Forall_forall in IH.
      apply pstops_seq; auto; [apply emits_pstops; now apply emits_size|].
      destruct (as_bytes c t') eqn:Eab; [destruct cg|]; cbn [andb]; try (apply pstops_all; auto; fail).
      assert (E : enc_all (menc G M P c) l t' = pdone (flat_map (fun x => objrep c x t') l)).
      { rewrite (menc_all_ext _ (enc G (fmt_of c))).
        - apply enc_all_bytes. rewrite Forall_forall. intros x Hin. apply objrep_enc; auto.
        - intros x Hin. apply menc_norec; auto. eapply bytes_nrec; eauto. }
      rewrite E. apply emits_pstops, emits_put_bytes.
    - (* associative *)
      cbn [mser menc messages] in *.
      unfold plain in Hp. cbn [tall elem_ok not_bitset andb] in Hp, Hn.
      cbn [wf] in Hwf. apply andb_true_iff in Hwf as [Hs0 Hwf].
      apply andb_true_iff in Hwt as [Hwt _].
      rewrite forallb_forall in Hwt, Hf. rewrite Forall_forall in IH.
      apply pstops_seq; auto; [apply emits_pstops; now apply emits_size|].
      apply pstops_all; auto.
    - (* span *)
      cbn [mser menc messages] in *.
      unfold plain in Hp. cbn [tall elem_ok not_bitset andb] in Hp, Hn.
      apply andb_true_iff in Hp as [He Hp]. apply negb_true_iff in He.
      cbn [wf] in Hwf. apply andb_true_iff in Hwf as [Hs0 Hwf].
      rewrite forallb_forall in Hwt, Hf. rewrite Forall_forall in IH.
      apply pstops_seq; auto; [apply emits_pstops; now apply emits_size|].
      destruct (as_bytes c t') eqn:Eab; try (apply pstops_all; auto; fail).
      assert (E : enc_all (menc G M P c) l t' = pdone (flat_map (fun x => objrep c x t') l)).
      { rewrite (menc_all_ext _ (enc G (fmt_of c))).
        - apply enc_all_bytes. rewrite Forall_forall. intros x Hin. apply objrep_enc; auto.
        - intros x Hin. apply menc_norec; auto. eapply bytes_nrec; eauto. }
      rewrite E. apply emits_pstops, emits_put_bytes.
    - (* no optional *) cbn [mser menc]. unfold ser_flag. rewrite scalar_bytes_wscalar, wscalar_1.
      apply emits_pstops, emits_put.
    - cbn [mser menc]. unfold ser_flag. rewrite scalar_bytes_wscalar, wscalar_1.
      apply emits_pstops, emits_put.
    - (* null *) cbn [mser menc]. apply pstops_null.
    - (* optional *) cbn [mser menc messages wf] in *. unfold plain in Hp. cbn [tall elem_ok not_bitset andb] in Hp, Hn.
      apply pstops_seq; auto.
      unfold ser_flag. rewrite scalar_bytes_wscalar, wscalar_1. apply emits_pstops, emits_put.
    - (* optional_ptr *) cbn [mser menc messages wf] in *. unfold plain in Hp. cbn [tall elem_ok not_bitset andb] in Hp, Hn.
      apply pstops_seq; auto.
      unfold ser_flag. rewrite scalar_bytes_wscalar, wscalar_1. apply emits_pstops, emits_put.
    - (* pointer *) cbn [mser menc messages wf] in *. unfold plain in Hp. cbn [tall elem_ok not_bitset andb] in Hp, Hn. auto.
    - (* variant *)
      cbn [mser menc messages] in *. destruct (nth_error alts i) as [t'|] eqn:Ei; [|discriminate].
      cbn [wf] in Hwf. rewrite !andb_true_iff in Hwf.
      destruct Hwf as [[[[_ Hlen] _] Hids] Hwf]. apply Nat.eqb_eq in Hlen.
      assert (Hi : (i < length meta)%nat).
      { rewrite Hlen. apply nth_error_Some. congruence. }
      destruct (nth_error meta i) as [[id dc]|] eqn:Em; [|apply nth_error_None in Em; lia].
      pose proof (nth_error_In _ _ Ei) as Hin.
      unfold plain in Hp. cbn [tall elem_ok not_bitset andb] in Hp, Hn.
      rewrite forallb_forall in Hwf, Hp, Hn.
      apply pstops_seq; auto.
      apply emits_pstops. unfold ser_id, wire_id. destruct ik as [w|m].
      + rewrite scalar_bytes_wscalar. apply emits_put.
      + apply emits_put_bytes.
    - (* valueless *) cbn [mser menc]. apply pstops_null.
    - (* views *)
      destruct k as [s|m|]; cbn [mser menc wf] in *.
      + apply pstops_done_seq; [apply emits_pstops; now apply emits_size|apply emits_pstops, emits_put_bytes].
      + apply emits_pstops, emits_put_bytes.
      + apply emits_pstops, emits_put_bytes.
  Qed.
End Emits.
