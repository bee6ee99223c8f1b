(** Classes with a serialize function: reading arbitrary bytes. *)

From Coq Require Import List NArith ZArith Lia Bool Arith.
From Coq Require Import ZifyBool ZifyNat ZifyN.
From Verif Require Import Base.Bytes Model.Types Model.Machine Model.Varint Model.Out Model.In Model.Pb
  Model.Custom Spec.Leb128 Spec.Wire Spec.CustomWire Proofs.VarintP Proofs.OutP Proofs.InBase
  Proofs.InSafe Proofs.InLocal Proofs.PbIn Proofs.CustomP.
Import ListNotations.
Local Open Scope N_scope.

Lemma sound_weaken G (Q Q' : ty -> Prop) ts p : (forall t, Q t -> Q' t) -> sound G Q ts p -> sound G Q' ts p.
Proof.
  intro H. induction p as [|e| |i t k IH|t f k IH|f k IH]; cbn [sound]; auto.
  - intros (H1 & H2 & H3 & H4). repeat split; auto.
  - intros (H1 & H2 & H3 & H4 & H5). repeat split; auto.
  - intros (H1 & H2). split; auto.
Qed.

Lemma tall_and p q t : tall p t = true -> tall q t = true -> tall (fun t => p t && q t) t = true.
Proof.
  induction t using ty_ind'; cbn [tall]; rewrite !andb_true_iff; intros [H1 H2] [H3 H4]; auto;
    (split; [auto|]); rewrite forallb_forall in *; rewrite Forall_forall in *; auto.
Qed.

(** What is asked of the types of items. *)
Definition scan_ok (G : tenv) (ub st : bool) (t : ty) : Prop :=
  tall (flagged ub st) t = true /\ tallP (cmp_ok G) t.

Section Safe.
  Variables (G : tenv) (c : cfg) (data : list byte) (ub : bool).
  Hypothesis (HG : wf_env G) (Hds : wfsz (Some (dsize c)) = true) (Hsm : small data).

  Lemma loc_safe t :
    wf G t = true -> tall nrec t = true -> scan_ok G ub true t ->
    safe_f G data ub true t (des_ty G c data no_rec t).
  Proof.
    intros Hw Hn [Hf Hc] prior pos Hp Hpr.
    assert (H : safe_f G data ub false t (des_ty G c data no_rec t)).
    { apply des_ty_safe; auto; [discriminate|].
      apply (tall_sub (fun t => flagged ub true t && nrec t)); [|now apply tall_and].
      intros t' H. apply andb_true_iff in H as [H1 H2]. unfold flagged in *.
      apply andb_true_iff in H1 as [H1 _]. rewrite H1. cbn. destruct t'; auto. }
    specialize (H prior pos Hp Hpr). destruct (des_ty _ _ _ _ _ _ _) as [[r v] p].
    cbn [safe_out] in *. destruct H as (H1 & H2 & H3 & H4). split; [exact H1|]. split; [exact H2|]. split; auto.
  Qed.

  Lemma run_in_safe (Q : ty -> Prop) rd ts :
    (forall t, Q t -> scan_ok G ub true t) ->
    (forall t, wf G t = true -> Q t -> safe_f G data ub true t (rd t)) ->
    forall p self pos, sound G Q ts p -> object G self ts -> (pos <= length data)%nat ->
      match run_in rd (des_ty G c data no_rec) p self pos with (r, l, p') =>
        (pos <= p' <= length data)%nat /\ object G l ts /\ allowed ub true r end.
  Proof.
    intros HQ Hrd. induction p as [|e| |i t k IH|t f k IH|f k IH]; intros self pos Hs Ho Hp; cbn [run_in sound] in *.
    - auto.
    - auto.
    - auto.
    - destruct Hs as ((t0 & Ht & Hx) & Hw & Hq & Hk).
      destruct (forall2b_nth_l _ _ _ _ _ Ho Ht) as (x & Ex & Hwx). rewrite Ex.
      pose proof (Hrd t Hw Hq x pos Hp ltac:(now rewrite Hx)) as S.
      destruct (rd t x pos) as [[r y] p']. cbn [safe_out] in S. destruct S as (S1 & S2 & S3).
      assert (Ho' : object G (set_nth i y self) ts).
      { apply (forall2b_set _ _ _ _ _ t0 Ho Ht). now rewrite <- Hx. }
      destruct r; try (split; [lia|]; split; auto; fail).
      specialize (IH (set_nth i y self) (set_nth i y self) p' (Hk _ Ho') Ho' ltac:(lia)).
      destruct (run_in _ _ _ _ _) as [[r l] q]. destruct IH as (I1 & I2 & I3). split; [lia|]. auto.
    - destruct Hs as (Hw & Hn & Hq & Hf & Hk).
      pose proof (loc_safe t Hw Hn (HQ _ Hq) (f self) pos Hp (Hf self Ho)) as S.
      destruct (des_ty G c data no_rec t (f self) pos) as [[r y] p']. cbn [safe_out] in S. destruct S as (S1 & S2 & S3).
      destruct r; try (split; [lia|]; split; auto; fail).
      specialize (IH y self self p' (Hk _ _ S2 Ho) Ho ltac:(lia)).
      destruct (run_in _ _ _ _ _) as [[r l] q]. destruct IH as (I1 & I2 & I3). split; [lia|]. auto.
    - destruct Hs as [Hf Hk]. apply IH; auto.
  Qed.

  Variable F : funs.
  Hypothesis (HF : forall k, sound G (scan_ok G ub true) (t_mems G k) (F k)).

  Lemma cdes_rec_safe fuel k : safe_f G data ub true (TRec k) (cdes_rec G F c data fuel k).
  Proof.
    revert k. induction fuel as [|f IH]; intros k prior pos Hp Hpr; cbn [cdes_rec].
    - cbn [safe_out]. split; [lia|]. split; auto. split; [discriminate|auto].
    - destruct prior; try discriminate. cbn [wt as_seq] in *.
      assert (Hrd : forall t, wf G t = true -> scan_ok G ub true t ->
        safe_f G data ub true t (des_ty G c data (cdes_rec G F c data f) t)).
      { intros t Hw [Hf Hc]. apply des_ty_safe; auto. }
      pose proof (run_in_safe _ _ (t_mems G k) (fun t H => H) Hrd (F k) l pos (HF k) Hpr Hp) as S.
      destruct (run_in _ _ _ _ _) as [[r l'] p]. exact S.
  Qed.

  Theorem cdes_safe fuel t :
    wf G t = true -> scan_ok G ub true t -> safe_f G data ub true t (cdes G F c data fuel t).
  Proof. intros Hw [Hf Hc]. unfold cdes. apply des_ty_safe; auto. intros k _. apply cdes_rec_safe. Qed.
End Safe.

Definition part_ok (G : tenv) (c : cfg) (t : ty) : Prop :=
  tall (delimited c) t = true /\ tallP (cmp_ok G) t.

Section Local.
  Variables (G : tenv) (F : funs) (c : cfg) (data data' : list byte).
  Hypothesis (HG : wf_env G) (Hds : wfsz (Some (dsize c)) = true).
  Hypothesis (Hsm : small data) (Hsm' : small data').
  Hypothesis (HF : forall k, sound G (part_ok G c) (t_mems G k) (F k)).

  Lemma part_scan t : part_ok G c t -> scan_ok G true true t.
  Proof. intros [_ H]. split; [apply flagged_true|exact H]. Qed.

  Lemma run_in_local rd rd' ts :
    (forall t, wf G t = true -> part_ok G c t -> safe_f G data true true t (rd t)) ->
    (forall t, wf G t = true -> part_ok G c t -> local_f G data data' t (rd t) (rd' t)) ->
    forall p self pos l q, sound G (part_ok G c) ts p -> object G self ts ->
      (pos <= length data)%nat -> (pos <= length data')%nat ->
      run_in rd (des_ty G c data no_rec) p self pos = (ROk, l, q) ->
      agree data data' pos (Nat.min q (length data')) ->
      lres data' l q (run_in rd' (des_ty G c data' no_rec) p self pos).
  Proof.
    intros Hrd Hl. induction p as [|e| |i t k IH|t f k IH|f k IH];
      intros self pos l q Hs Ho Hp Hp' E Hag; cbn [run_in sound] in *.
    - injection E as <- <-. unfold lres. destruct (Nat.leb_spec pos (length data')); [reflexivity|lia].
    - discriminate.
    - discriminate.
    - destruct Hs as ((t0 & Ht & Hx) & Hw & Hq & Hk).
      destruct (forall2b_nth_l _ _ _ _ _ Ho Ht) as (x & Ex & Hwx). rewrite Ex in *.
      assert (Hwx' : wt G x t = true) by now rewrite Hx.
      pose proof (Hrd t Hw Hq x pos Hp Hwx') as S.
      destruct (rd t x pos) as [[r y] p'] eqn:Er. cbn [safe_out] in S. destruct S as (S1 & S2 & S3).
      destruct r; try discriminate.
      assert (Ho' : object G (set_nth i y self) ts).
      { apply (forall2b_set _ _ _ _ _ t0 Ho Ht). now rewrite <- Hx. }
      pose proof (run_in_safe G c data true HG Hds Hsm (part_ok G c) rd ts part_scan Hrd
        (k (set_nth i y self)) (set_nth i y self) p' (Hk _ Ho') Ho' ltac:(lia)) as S. rewrite E in S.
      destruct S as (S4 & _ & _).
      specialize (Hl t Hw Hq x pos y p' Hp Hp' Hwx' Er ltac:(eapply agree_sub; eauto; lia)).
      unfold lres in Hl |- *. destruct (Nat.leb_spec p' (length data')).
      + rewrite Hl. apply (IH _ _ p' l q (Hk _ Ho') Ho'); auto; [lia|].
        eapply agree_sub; eauto; lia.
      + destruct (Nat.leb_spec q (length data')); [lia|].
        destruct (rd' t x pos) as [[r3 l3] p3]. cbn [fst] in Hl. subst r3. reflexivity.
    - destruct Hs as (Hw & Hn & Hq & Hf & Hk).
      pose proof (loc_safe G c data true HG Hds Hsm t Hw Hn (part_scan t Hq) (f self) pos Hp (Hf self Ho)) as S.
      destruct (des_ty G c data no_rec t (f self) pos) as [[r y] p'] eqn:Er. cbn [safe_out] in S.
      destruct S as (S1 & S2 & S3). destruct r; try discriminate.
      pose proof (run_in_safe G c data true HG Hds Hsm (part_ok G c) rd ts part_scan Hrd
        (k y self) self p' (Hk _ _ S2 Ho) Ho ltac:(lia)) as S. rewrite E in S.
      destruct S as (S4 & _ & _).
      assert (L : local_f G data data' t (des_ty G c data no_rec t) (des_ty G c data' no_rec t)).
      { destruct Hq as [Q1 Q2]. apply des_ty_local; auto; intro n; intros ? ? ?; cbn [no_rec safe_out].
        - intros. split; [lia|]. split; [assumption|]. split; [reflexivity|discriminate].
        - discriminate. }
      specialize (L (f self) pos y p' Hp Hp' (Hf self Ho) Er ltac:(eapply agree_sub; eauto; lia)).
      unfold lres in L |- *. destruct (Nat.leb_spec p' (length data')).
      + rewrite L. apply (IH _ _ _ p' l q (Hk _ _ S2 Ho) Ho); auto; [lia|].
        eapply agree_sub; eauto; lia.
      + destruct (Nat.leb_spec q (length data')); [lia|].
        destruct (des_ty G c data' no_rec t (f self) pos) as [[r3 l3] p3]. cbn [fst] in L. subst r3. reflexivity.
    - destruct Hs as [Hf Hk]. eauto.
  Qed.

  Lemma cdes_rec_local fuel k :
    local_f G data data' (TRec k) (cdes_rec G F c data fuel k) (cdes_rec G F c data' fuel k).
  Proof.
    revert k. induction fuel as [|f IH]; intros k prior pos v p Hp Hp' Hpr E Hag;
      cbn [cdes_rec] in *; [discriminate|].
    destruct prior; try discriminate. cbn [wt as_seq] in *.
    destruct (run_in (des_ty G c data (cdes_rec G F c data f)) (des_ty G c data no_rec) (F k) l pos)
      as [[r l'] q] eqn:E1.
    cbn [seq_res] in E. injection E as -> <- ->. apply seq_lres.
    assert (SF : forall k0, safe_f G data true true (TRec k0) (cdes_rec G F c data f k0)).
    { intro k0. apply cdes_rec_safe; auto. intro k1. eapply sound_weaken; [|apply HF]. apply part_scan. }
    eapply run_in_local; eauto.
    - intros t Hw [H1 H2]. apply bytes_f_safe; auto.
    - intros t Hw [H1 H2]. apply des_ty_local; auto.
  Qed.

  Theorem cdes_local fuel t :
    wf G t = true -> part_ok G c t ->
    local_f G data data' t (cdes G F c data fuel t) (cdes G F c data' fuel t).
  Proof.
    intros Hw [H1 H2]. unfold cdes. apply des_ty_local; auto using cdes_rec_local.
    intro k. apply cdes_rec_safe; auto. intro k1. eapply sound_weaken; [|apply HF]. apply part_scan.
  Qed.
End Local.
