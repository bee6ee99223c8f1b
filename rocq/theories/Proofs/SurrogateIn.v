(** Classes whose functions go through other classes: reading arbitrary bytes. *)

From Coq Require Import List NArith ZArith Lia Bool Arith.
From Coq Require Import ZifyBool ZifyNat ZifyN.
From Verif Require Import Base.Bytes Model.Types Model.Machine Model.Varint Model.Out Model.In Model.Pb
  Model.Custom Model.Surrogate Spec.Leb128 Spec.Wire Spec.CustomWire Spec.SurrogateWire
  Proofs.VarintP Proofs.OutP Proofs.InBase
  Proofs.InSafe Proofs.InLocal Proofs.InRound Proofs.PbIn Proofs.CustomP Proofs.CustomIn Proofs.CustomOrder.
Import ListNotations.
Local Open Scope N_scope.

Lemma psound_weaken G (Q Q' : ty -> Prop) ts p : (forall t, Q t -> Q' t) -> psound G Q ts p -> psound G Q' ts p.
Proof.
  intro H. induction p as [|e| |i t k IH|t f k IH|f k IH]; cbn [psound]; auto.
  - intros (H1 & H2 & H3 & H4). repeat split; auto.
  - intros (H1 & H2 & H3 & H4). repeat split; auto.
  - intros (H1 & H2). split; auto.
Qed.

Lemma sound_psound G Q ts p : sound G Q ts p -> psound G Q ts p.
Proof.
  induction p as [|e| |i t k IH|t f k IH|f k IH]; cbn [sound psound]; auto.
  - intros (H1 & H2 & H3 & H4). repeat split; auto.
  - intros (H1 & H2 & H3 & H4 & H5). repeat split; auto.
  - intros (H1 & H2). split; auto.
Qed.

Section Safe.
  Variables (G : tenv) (c : cfg) (data : list byte) (ub : bool).
  Hypothesis (HG : wf_env G) (Hds : wfsz (Some (dsize c)) = true) (Hsm : small data).

  Lemma prun_safe (Q : ty -> Prop) rd ts :
    (forall t, wf G t = true -> Q t -> safe_f G data ub true t (rd t)) ->
    forall p self pos, psound G Q ts p -> object G self ts -> (pos <= length data)%nat ->
      match run_in rd rd p self pos with (r, l, p') =>
        (pos <= p' <= length data)%nat /\ object G l ts /\ allowed ub true r end.
  Proof.
    intros Hrd. induction p as [|e| |i t k IH|t f k IH|f k IH]; intros self pos Hs Ho Hp; cbn [run_in psound] in *.
    - auto.
    - auto.
    - auto.
    - destruct Hs as ((t0 & Ht & Hx) & Hw & Hq & Hk).
      destruct (forall2b_nth_l _ _ _ _ _ Ho Ht) as (x & Ex & Hwx). rewrite Ex.
      pose proof (Hrd t Hw Hq x pos Hp ltac:(now rewrite Hx)) as S.
      destruct (rd t x pos) as [[r y] p']. cbn [safe_out] in S. destruct S as (S1 & S2 & S3).
      assert (Ho' : object G (set_nth i y self) ts).
      { apply (forall2b_set _ _ _ _ _ t0 Ho Ht). now rewrite <- Hx. }
      destruct r; try (split; [lia|]; split; auto; fail).
      specialize (IH (set_nth i y self) (set_nth i y self) p' (Hk _ Ho') Ho' ltac:(lia)).
      destruct (run_in _ _ _ _ _) as [[r l] q]. destruct IH as (I1 & I2 & I3). split; [lia|]. auto.
    - destruct Hs as (Hw & Hq & Hf & Hk).
      pose proof (Hrd t Hw Hq (f self) pos Hp (Hf self Ho)) as S.
      destruct (rd t (f self) pos) as [[r y] p']. cbn [safe_out] in S. destruct S as (S1 & S2 & S3).
      destruct r; try (split; [lia|]; split; auto; fail).
      specialize (IH y self self p' (Hk _ _ S2 Ho) Ho ltac:(lia)).
      destruct (run_in _ _ _ _ _) as [[r l] q]. destruct IH as (I1 & I2 & I3). split; [lia|]. auto.
    - destruct Hs as [Hf Hk]. apply IH; auto.
  Qed.

  Variable F : funs.
  Hypothesis (HF : forall k, psound G (scan_ok G ub true) (t_mems G k) (F k)).

  Lemma pdes_rec_safe fuel k : safe_f G data ub true (TRec k) (pdes_rec G F c data fuel k).
  Proof.
    revert k. induction fuel as [|f IH]; intros k prior pos Hp Hpr; cbn [pdes_rec].
    - cbn [safe_out]. split; [lia|]. split; auto. split; [discriminate|auto].
    - destruct prior; try discriminate. cbn [wt as_seq] in *.
      assert (Hrd : forall t, wf G t = true -> scan_ok G ub true t ->
        safe_f G data ub true t (des_ty G c data (pdes_rec G F c data f) t)).
      { intros t Hw [Hf Hc]. apply des_ty_safe; auto. }
      pose proof (prun_safe _ _ (t_mems G k) Hrd (F k) l pos (HF k) Hpr Hp) as S.
      destruct (run_in _ _ _ _ _) as [[r l'] p]. exact S.
  Qed.

  Theorem pdes_safe fuel t :
    wf G t = true -> scan_ok G ub true t -> safe_f G data ub true t (pdes G F c data fuel t).
  Proof. intros Hw [Hf Hc]. unfold pdes. apply des_ty_safe; auto. intros k _. apply pdes_rec_safe. Qed.
End Safe.

Section Local.
  Variables (G : tenv) (F : funs) (c : cfg) (data data' : list byte).
  Hypothesis (HG : wf_env G) (Hds : wfsz (Some (dsize c)) = true).
  Hypothesis (Hsm : small data) (Hsm' : small data').
  Hypothesis (HF : forall k, psound G (part_ok G c) (t_mems G k) (F k)).

  Lemma prun_local rd rd' ts :
    (forall t, wf G t = true -> part_ok G c t -> safe_f G data true true t (rd t)) ->
    (forall t, wf G t = true -> part_ok G c t -> local_f G data data' t (rd t) (rd' t)) ->
    forall p self pos l q, psound G (part_ok G c) ts p -> object G self ts ->
      (pos <= length data)%nat -> (pos <= length data')%nat ->
      run_in rd rd p self pos = (ROk, l, q) ->
      agree data data' pos (Nat.min q (length data')) ->
      lres data' l q (run_in rd' rd' p self pos).
  Proof.
    intros Hrd Hl. induction p as [|e| |i t k IH|t f k IH|f k IH];
      intros self pos l q Hs Ho Hp Hp' E Hag; cbn [run_in psound] in *.
    - injection E as <- <-. unfold lres. destruct (Nat.leb_spec pos (length data')); [reflexivity|lia].
    - discriminate.
    - discriminate.
    - destruct Hs as ((t0 & Ht & Hx) & Hw & Hq & Hk).
      destruct (forall2b_nth_l _ _ _ _ _ Ho Ht) as (x & Ex & Hwx). rewrite Ex in *.
      assert (Hwx' : wt G x t = true) by now rewrite Hx.
      pose proof (Hrd t Hw Hq x pos Hp Hwx') as S.
      destruct (rd t x pos) as [[r y] p'] eqn:Er. cbn [safe_out] in S. destruct S as (S1 & S2 & S3).
      destruct r; try discriminate.
      assert (Ho' : object G (set_nth i y self) ts).
      { apply (forall2b_set _ _ _ _ _ t0 Ho Ht). now rewrite <- Hx. }
      pose proof (prun_safe G c data true (part_ok G c) rd ts Hrd
        (k (set_nth i y self)) (set_nth i y self) p' (Hk _ Ho') Ho' ltac:(lia)) as S. rewrite E in S.
      destruct S as (S4 & _ & _).
      specialize (Hl t Hw Hq x pos y p' Hp Hp' Hwx' Er ltac:(eapply agree_sub; eauto; lia)).
      unfold lres in Hl |- *. destruct (Nat.leb_spec p' (length data')).
      + rewrite Hl. apply (IH _ _ p' l q (Hk _ Ho') Ho'); auto; [lia|].
        eapply agree_sub; eauto; lia.
      + destruct (Nat.leb_spec q (length data')); [lia|].
        destruct (rd' t x pos) as [[r3 l3] p3]. cbn [fst] in Hl. subst r3. reflexivity.
    - destruct Hs as (Hw & Hq & Hf & Hk).
      pose proof (Hrd t Hw Hq (f self) pos Hp (Hf self Ho)) as S.
      destruct (rd t (f self) pos) as [[r y] p'] eqn:Er. cbn [safe_out] in S.
      destruct S as (S1 & S2 & S3). destruct r; try discriminate.
      pose proof (prun_safe G c data true (part_ok G c) rd ts Hrd
        (k y self) self p' (Hk _ _ S2 Ho) Ho ltac:(lia)) as S. rewrite E in S.
      destruct S as (S4 & _ & _).
      pose proof (Hl t Hw Hq) as L.
      specialize (L (f self) pos y p' Hp Hp' (Hf self Ho) Er ltac:(eapply agree_sub; eauto; lia)).
      unfold lres in L |- *. destruct (Nat.leb_spec p' (length data')).
      + rewrite L. apply (IH _ _ _ p' l q (Hk _ _ S2 Ho) Ho); auto; [lia|].
        eapply agree_sub; eauto; lia.
      + destruct (Nat.leb_spec q (length data')); [lia|].
        destruct (rd' t (f self) pos) as [[r3 l3] p3]. cbn [fst] in L. subst r3. reflexivity.
    - destruct Hs as [Hf Hk]. eauto.
  Qed.

  Lemma pdes_rec_local fuel k :
    local_f G data data' (TRec k) (pdes_rec G F c data fuel k) (pdes_rec G F c data' fuel k).
  Proof.
    revert k. induction fuel as [|f IH]; intros k prior pos v p Hp Hp' Hpr E Hag;
      cbn [pdes_rec] in *; [discriminate|].
    destruct prior; try discriminate. cbn [wt as_seq] in *.
    destruct (run_in (des_ty G c data (pdes_rec G F c data f)) (des_ty G c data (pdes_rec G F c data f)) (F k) l pos)
      as [[r l'] q] eqn:E1.
    cbn [seq_res] in E. injection E as -> <- ->. apply seq_lres.
    assert (SF : forall k0, safe_f G data true true (TRec k0) (pdes_rec G F c data f k0)).
    { intro k0. apply pdes_rec_safe; auto. intro k1. eapply psound_weaken; [|apply HF]. apply (part_scan G c). }
    eapply prun_local; eauto.
    - intros t Hw [H1 H2]. apply bytes_f_safe; auto.
    - intros t Hw [H1 H2]. apply des_ty_local; auto.
  Qed.

  Theorem pdes_local fuel t :
    wf G t = true -> part_ok G c t ->
    local_f G data data' t (pdes G F c data fuel t) (pdes G F c data' fuel t).
  Proof.
    intros Hw [H1 H2]. unfold pdes. apply des_ty_local; auto using pdes_rec_local.
    intro k. apply pdes_rec_safe; auto. intro k1. eapply psound_weaken; [|apply HF]. apply (part_scan G c).
  Qed.
End Local.

(** ** Without named classes among the locals *)

Section Ext.
  Variables (G : tenv) (c : cfg) (data : list byte) (rec rec' : nat -> val -> nat -> dres) (b : bool).
  Hypothesis Hrec : b = true -> forall k prior pos, rec k prior pos = rec' k prior pos.
  Definition same_f (f f' : val -> nat -> dres) : Prop := forall prior pos, f prior pos = f' prior pos.

  Lemma des_many_same f f' ms :
    Forall (fun m => same_f (f m) (f' m)) ms -> forall priors pos, des_many f ms priors pos = des_many f' ms priors pos.
  Proof.
    induction 1 as [|m ms HE _ IH]; intros priors pos; cbn [des_many]; [reflexivity|].
    rewrite (HE _ pos). destruct (f' m _ pos) as [[[] v] p]; try reflexivity. now rewrite IH.
  Qed.

  Lemma des_all_same f f' : same_f f f' -> forall l pos, des_all f l pos = des_all f' l pos.
  Proof.
    intro HE. induction l as [|x l IH]; intros pos; cbn [des_all]; [reflexivity|]. rewrite (HE x pos).
    destruct (f' x pos) as [[[] v] p]; try reflexivity. now rewrite IH.
  Qed.

  Lemma des_assoc_same f f' ins d :
    same_f f f' -> forall n acc pos, des_assoc f ins d n acc pos = des_assoc f' ins d n acc pos.
  Proof.
    intros HE. induction n as [|n IH]; intros acc pos; cbn [des_assoc]; [reflexivity|].
    rewrite (HE d pos). destruct (f' d pos) as [[[] v] p]; auto.
  Qed.

  Lemma des_elems_same bb f f' t l pos :
    same_f f f' -> des_elems c data bb f t l pos = des_elems c data bb f' t l pos.
  Proof. intros HE. unfold des_elems. destruct bb; [reflexivity|]. now rewrite (des_all_same f f'). Qed.

  Lemma des_inplace_same dc f f' wrap cur d prior pos :
    same_f f f' -> des_inplace dc f wrap cur d prior pos = des_inplace dc f' wrap cur d prior pos.
  Proof. intros HE. unfold des_inplace. destruct dc; now rewrite HE. Qed.

  Lemma des_ptr_same f f' d prior pos : same_f f f' -> des_ptr f d prior pos = des_ptr f' d prior pos.
  Proof. intros HE. unfold des_ptr. now rewrite HE. Qed.

  Lemma des_ty_same t : tall (fun t => b || nrec t) t = true -> same_f (des_ty G c data rec t) (des_ty G c data rec' t).
  Proof.
    induction t using ty_ind'; intros Hn prior pos; try reflexivity; cbn [tall] in Hn;
      apply andb_true_iff in Hn as [Hb Hn].
    - cbn [des_ty]. destruct (_ && _); [reflexivity|]. destruct (as_bytes _ _); [reflexivity|].
      f_equal. apply des_many_same. rewrite forallb_forall in Hn. rewrite Forall_forall in *. auto.
    - cbn [des_ty nrec] in *. apply Hrec. now destruct b.
    - cbn [des_ty]. apply des_elems_same; auto.
    - cbn [des_ty]. f_equal. apply des_many_same. rewrite forallb_forall in Hn. rewrite Forall_forall in *. auto.
    - cbn [des_ty]. destruct (sz_of c s); [now apply des_elems_same; auto|..];
        (destruct (des_size _ _ _ _) as [[[] n] p]; try reflexivity;
         destruct (vec_resize _ _ _ _ _) as [[] l']; try reflexivity; apply des_elems_same; auto).
    - cbn [des_ty]. destruct (match sz_of c s with SzNone => _ | _ => _ end) as [[[] n] p]; try reflexivity.
      f_equal. apply des_assoc_same; auto.
    - cbn [des_ty]. destruct (des_flag _ _ _) as [[[] n] p]; try reflexivity.
      destruct n; [reflexivity|]. apply des_inplace_same; auto.
    - cbn [des_ty]. destruct (des_flag _ _ _) as [[[] n] p]; try reflexivity.
      destruct n; [reflexivity|]. apply des_ptr_same; auto.
    - cbn [des_ty]. apply des_ptr_same; auto.
    - rewrite !des_variant_eq. destruct (des_id _ _ _ _) as [[[] n] p]; try reflexivity.
      destruct (find_id meta n) as [i|]; [|reflexivity].
      destruct (nth_error alts i) as [t'|] eqn:Ea; [|reflexivity].
      pose proof (nth_error_In _ _ Ea) as Hin. rewrite forallb_forall in Hn. rewrite Forall_forall in H.
      apply des_inplace_same; auto.
    - cbn [des_ty]. destruct (sz_of c s); [now apply des_elems_same; auto|..];
        (destruct (des_size _ _ _ _) as [[[] n] p]; try reflexivity;
         destruct (_ <? n); [reflexivity|]; apply des_elems_same; auto).
  Qed.
End Ext.

(** Then reading is that of Model/Custom.v. *)
Theorem pdes_lone G F c data fuel t prior pos :
  (forall k, lone (F k)) -> pdes G F c data fuel t prior pos = cdes G F c data fuel t prior pos.
Proof.
  intro HF. unfold pdes, cdes. apply des_ty_same with (b := true); [|now apply tall_true]. intros _.
  induction fuel as [|f IH]; intros k pr q; cbn [pdes_rec cdes_rec]; [reflexivity|]. f_equal.
  pose proof (HF k) as HS. revert HS. generalize (F k) as p, (as_seq pr) as l. intros p l. revert l q.
  induction p as [|e| |i t' kk IHp|t' f' kk IHp|f' kk IHp]; intros l q HS; cbn [run_in lone] in *; auto.
  - destruct (nth_error l i) as [x|]; [|reflexivity].
    rewrite (des_ty_same G c data (pdes_rec G F c data f) (cdes_rec G F c data f) true) by (auto; now apply tall_true).
    destruct (des_ty _ _ _ _ _ _ _) as [[[] y] p']; auto.
  - destruct HS as [Hn HS].
    rewrite (des_ty_same G c data (pdes_rec G F c data f) no_rec false) by (discriminate || exact Hn).
    destruct (des_ty _ _ _ _ _ _ _) as [[[] y] p']; auto.
Qed.

(** And so is writing, if functions may be as deep inside of one another as the object. *)
Lemma wser_norec G c rec : forall v t, tall nrec t = true -> forall st, wser c rec v t st = ser G c v t st.
Proof.
  induction v as [n|l IH| |v IH|i v IH| |l|l] using val_ind'; intros t Hn st;
    destruct t as [w isb| |w sg zz| |si ms|k|n' t'|ts|s cg t'|s k t'|dc t'|t'|t'|ik meta alts|n'|k|s t'];
    try discriminate; try reflexivity; try (destruct k as [s|nv|]; reflexivity); cbn [wser ser tall nrec andb] in *;
    try (rewrite Forall_forall in IH).
  - destruct (_ && _); [reflexivity|]. destruct (as_bytes _ _); [reflexivity|].
    apply ser_many_ext. intros x m Hin. apply IH; [eapply in_combine_l; eauto|eapply in_combine_forallb; eauto].
  - destruct (as_bytes _ _); [reflexivity|]. apply ser_all_ext. auto.
  - apply ser_many_ext. intros x m Hin. apply IH; [eapply in_combine_l; eauto|eapply in_combine_forallb; eauto].
  - apply seq_ext; [reflexivity|]. intro st'. destruct (_ && _); [reflexivity|]. apply ser_all_ext. auto.
  - apply seq_ext; [reflexivity|]. apply ser_all_ext. auto.
  - apply seq_ext; [reflexivity|]. intro st'. destruct (as_bytes _ _); [reflexivity|]. apply ser_all_ext. auto.
  - apply seq_ext; [reflexivity|]. auto.
  - apply seq_ext; [reflexivity|]. auto.
  - auto.
  - destruct (nth_error meta i) as [[id dc]|]; [|reflexivity].
    destruct (nth_error alts i) as [t'|] eqn:E; [|reflexivity].
    apply seq_ext; [reflexivity|]. intro st'. apply IH. rewrite forallb_forall in Hn. apply Hn.
    eapply nth_error_In; eauto.
Qed.

Theorem pser_lone G F c :
  (forall k, lone (F k)) ->
  forall v t fuel st, (height v <= fuel)%nat -> pser F c fuel v t st = cser G F c v t st.
Proof.
  intros HF. unfold pser.
  induction v as [n|l IH| |v IH|i v IH| |l|l] using val_ind'; intros t fuel st Hh;
    destruct t as [w isb| |w sg zz| |si ms|k|n' t'|ts|s cg t'|s k t'|dc t'|t'|t'|ik meta alts|n'|k|s t'];
    try discriminate; try reflexivity; try (destruct k as [s|nv|]; reflexivity); cbn [wser cser];
    try (rewrite Forall_forall in IH).
  - destruct (_ && _); [reflexivity|]. destruct (as_bytes _ _); [reflexivity|].
    apply ser_many_ext. intros x m Hin st'. apply in_combine_l in Hin. apply IH; [exact Hin|].
    pose proof (height_in _ _ Hin). lia.
  - destruct fuel as [|f]; [cbn in Hh; lia|]. cbn [pser_rec].
    pose proof (HF k) as HS. revert st HS. generalize (F k). intro p.
    induction p as [|e| |i t kk IHp|t f' kk IHp|f' kk IHp]; intros st HS; cbn [run_w run_out lone] in *; auto.
    + rewrite nth_error_map. destruct (nth_error l i) as [x|] eqn:Ex; [|reflexivity]. cbn [option_map].
      apply seq_ext; [|auto]. intro st'. apply nth_error_In in Ex. apply IH; [exact Ex|].
      pose proof (height_in _ _ Ex). lia.
    + destruct HS as [Hn HS]. apply seq_ext; [|auto]. intro st'. now apply wser_norec.
  - destruct (as_bytes _ _); [reflexivity|]. apply ser_all_ext. intros x Hin st'. apply IH; [exact Hin|].
    pose proof (height_in _ _ Hin). lia.
  - apply ser_many_ext. intros x m Hin st'. apply in_combine_l in Hin. apply IH; [exact Hin|].
    pose proof (height_in _ _ Hin). lia.
  - apply seq_ext; [reflexivity|]. intro st'. destruct (_ && _); [reflexivity|]. apply ser_all_ext.
    intros x Hin st2. apply IH; [exact Hin|]. pose proof (height_in _ _ Hin). lia.
  - apply seq_ext; [reflexivity|]. apply ser_all_ext.
    intros x Hin st2. apply IH; [exact Hin|]. pose proof (height_in _ _ Hin). lia.
  - apply seq_ext; [reflexivity|]. intro st'. destruct (as_bytes _ _); [reflexivity|]. apply ser_all_ext.
    intros x Hin st2. apply IH; [exact Hin|]. pose proof (height_in _ _ Hin). lia.
  - cbn [height] in Hh. apply seq_ext; [reflexivity|]. intro st'. apply IH. lia.
  - cbn [height] in Hh. apply seq_ext; [reflexivity|]. intro st'. apply IH. lia.
  - cbn [height] in Hh. apply IH. lia.
  - cbn [height] in Hh. destruct (nth_error meta i) as [[id dc]|]; [|reflexivity].
    destruct (nth_error alts i) as [t'|] eqn:E; [|reflexivity].
    apply seq_ext; [reflexivity|]. intro st'. apply IH. lia.
Qed.
