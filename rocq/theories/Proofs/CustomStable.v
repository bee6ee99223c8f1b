(** Classes with a serialize function: answers other than result_out_of_range do not depend on
    data that is still to come. *)

From Coq Require Import List NArith ZArith Lia Bool Arith.
From Coq Require Import ZifyBool ZifyNat ZifyN.
From Verif Require Import Base.Bytes Model.Types Model.Machine Model.Varint Model.Out Model.In Model.Pb
  Model.Custom Spec.Leb128 Spec.Wire Spec.CustomWire Proofs.VarintP Proofs.OutP Proofs.InBase
  Proofs.InSafe Proofs.InLocal Proofs.InStable Proofs.PbIn Proofs.CustomP Proofs.CustomIn.
Import ListNotations.
Local Open Scope N_scope.

Section Stable.
  Variables (G : tenv) (F : funs) (c : cfg) (data more : list byte).
  Notation data' := (data ++ more).
  Hypothesis (HG : wf_env G) (Hds : wfsz (Some (dsize c)) = true).
  Hypothesis (Hsm : small data) (Hsm' : small data').
  Hypothesis (HF : forall k, sound G (part_ok G c) (t_mems G k) (F k)).

  Lemma run_in_stable rd rd' ts :
    (forall t, wf G t = true -> part_ok G c t -> safe_f G data true true t (rd t)) ->
    (forall t, wf G t = true -> part_ok G c t -> stable_f G data t (rd t) (rd' t)) ->
    forall p self pos, sound G (part_ok G c) ts p -> object G self ts -> (pos <= length data)%nat ->
      settled (run_in rd (des_ty G c data no_rec) p self pos) (run_in rd' (des_ty G c data' no_rec) p self pos).
  Proof.
    intros Hrd Hst. induction p as [|e| |i t k IH|t f k IH|f k IH]; intros self pos Hs Ho Hp; cbn [run_in sound] in *.
    - now right.
    - now right.
    - now right.
    - destruct Hs as ((t0 & Ht & Hx) & Hw & Hq & Hk).
      destruct (forall2b_nth_l _ _ _ _ _ Ho Ht) as (x & Ex & Hwx). rewrite Ex.
      assert (Hwx' : wt G x t = true) by now rewrite Hx.
      pose proof (Hrd t Hw Hq x pos Hp Hwx') as S.
      pose proof (Hst t Hw Hq x pos Hp Hwx') as T. unfold settled in T.
      destruct (rd t x pos) as [[r y] p']. cbn [safe_out] in S. destruct S as (S1 & S2 & S3).
      destruct T as [T|T]; [cbn [fst] in T; subst r; now left|]. rewrite T.
      destruct r; try now right.
      assert (Ho' : object G (set_nth i y self) ts).
      { apply (forall2b_set _ _ _ _ _ t0 Ho Ht). now rewrite <- Hx. }
      apply IH; auto. lia.
    - destruct Hs as (Hw & Hn & Hq & Hf & Hk).
      pose proof (loc_safe G c data true HG Hds Hsm t Hw Hn (part_scan G c t Hq) (f self) pos Hp (Hf self Ho)) as S.
      assert (L : stable_f G data t (des_ty G c data no_rec t) (des_ty G c data' no_rec t)).
      { destruct Hq as [Q1 Q2]. apply ty_stable; auto; intro n; intros ? ? ?; cbn [no_rec safe_out].
        - intros. split; [lia|]. split; [assumption|]. split; [reflexivity|discriminate].
        - intro. now right. }
      specialize (L (f self) pos Hp (Hf self Ho)). unfold settled in L.
      destruct (des_ty G c data no_rec t (f self) pos) as [[r y] p']. cbn [safe_out] in S.
      destruct S as (S1 & S2 & S3).
      destruct L as [L|L]; [cbn [fst] in L; subst r; now left|]. rewrite L.
      destruct r; try now right. apply IH; auto. lia.
    - destruct Hs as [Hf Hk]. auto.
  Qed.

  Lemma cdes_rec_stable fuel k :
    stable_f G data (TRec k) (cdes_rec G F c data fuel k) (cdes_rec G F c data' fuel k).
  Proof.
    revert k. induction fuel as [|f IH]; intros k prior pos Hp Hpr; cbn [cdes_rec] in *; [now right|].
    destruct prior; try discriminate. cbn [wt as_seq] in *. apply seq_settled.
    assert (SF : forall k0, safe_f G data true true (TRec k0) (cdes_rec G F c data f k0)).
    { intro k0. apply cdes_rec_safe; auto. intro k1. eapply sound_weaken; [|apply HF]. apply part_scan. }
    eapply run_in_stable; eauto.
    - intros t Hw [H1 H2]. apply bytes_f_safe; auto.
    - intros t Hw [H1 H2]. apply ty_stable; auto.
  Qed.

  Theorem cdes_stable fuel t :
    wf G t = true -> part_ok G c t ->
    stable_f G data t (cdes G F c data fuel t) (cdes G F c data' fuel t).
  Proof.
    intros Hw [H1 H2]. unfold cdes. apply ty_stable; auto using cdes_rec_stable.
    intro k. apply cdes_rec_safe; auto. intro k1. eapply sound_weaken; [|apply HF]. apply part_scan.
  Qed.
End Stable.
