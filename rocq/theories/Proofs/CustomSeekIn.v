(** Reading arbitrary bytes when classes move the position: as Proofs/InSafe.v, without the claim
    that the position only ever grows. *)

From Coq Require Import List NArith ZArith Lia Bool Arith.
From Coq Require Import ZifyBool ZifyNat ZifyN.
From Verif Require Import Base.Bytes Model.Types Model.Machine Model.Varint Model.Out Model.In Model.Pb
  Model.Custom Model.CustomSeek Spec.Leb128 Spec.Wire Spec.CustomWire Spec.CustomFile Proofs.VarintP
  Proofs.OutP Proofs.InBase Proofs.InSafe Proofs.PbIn Proofs.CustomP Proofs.CustomIn.
Import ListNotations.
Local Open Scope N_scope.

Ltac Zify.zify_post_hook ::= Z.div_mod_to_equations.

Section MSafeLoops.
  Variables (G : tenv) (data : list byte) (ub st : bool).

  Definition m_safe_out (t : ty) (pos : nat) (x : dres) : Prop :=
    match x with (r, v, p) =>
      (p <= length data)%nat /\ wt G v t = true /\ allowed ub st r
    end.

  Definition m_safe_f (t : ty) (f : val -> nat -> dres) : Prop :=
    forall prior pos, (pos <= length data)%nat -> wt G prior t = true -> m_safe_out t pos (f prior pos).

  Lemma m_des_many_safe f ms :
    Forall (fun m => m_safe_f m (f m)) ms ->
    forall priors pos, (pos <= length data)%nat ->
      forall2b (fun x m => wt G x m) priors ms = true ->
      match des_many f ms priors pos with (r, l, p) =>
        (p <= length data)%nat /\ forall2b (fun x m => wt G x m) l ms = true
        /\ allowed ub st r end.
  Proof.
    induction 1 as [|m ms Hm _ IH]; intros priors pos Hp Hw; cbn [des_many].
    { split; [lia|]. split; auto. }
    destruct priors as [|x priors]; [discriminate|]. cbn [forall2b tl] in *.
    apply andb_true_iff in Hw as [Hx Hw].
    pose proof (Hm x pos Hp Hx) as S. destruct (f m x pos) as [[r v] p]. cbn [m_safe_out] in S.
    destruct S as (S1 & S2 & S3).
    destruct r; try (split; [lia|]; split; [|exact S3]; cbn [forall2b]; now rewrite S2, Hw).
    specialize (IH priors p ltac:(lia) Hw).
    destruct (des_many f ms priors p) as [[r' vs] p']. destruct IH as (I1 & I2 & I3).
    split; [lia|]. split; [|exact I3]. cbn [forall2b]. now rewrite S2, I2.
  Qed.

  Lemma m_des_all_safe f t :
    m_safe_f t f ->
    forall l pos, (pos <= length data)%nat -> forallb (fun x => wt G x t) l = true ->
      match des_all f l pos with (r, l', p) =>
        (p <= length data)%nat /\ length l' = length l
        /\ forallb (fun x => wt G x t) l' = true /\ allowed ub st r end.
  Proof.
    intro Hf. induction l as [|x l IH]; intros pos Hp Hw; cbn [des_all].
    { split; [lia|]. repeat split; auto; discriminate. }
    cbn [forallb] in Hw. apply andb_true_iff in Hw as [Hx Hw].
    pose proof (Hf x pos Hp Hx) as S. destruct (f x pos) as [[r v] p]. cbn [m_safe_out] in S.
    destruct S as (S1 & S2 & S3).
    destruct r; try (split; [lia|]; split; [reflexivity|]; split; [|exact S3]; cbn [forallb]; now rewrite S2, Hw).
    specialize (IH p ltac:(lia) Hw).
    destruct (des_all f l p) as [[r' vs] p']. destruct IH as (I1 & I2 & I3 & I4).
    split; [lia|]. split; [cbn; lia|]. split; [|exact I4]. cbn [forallb]. now rewrite S2, I3.
  Qed.

  Lemma m_des_assoc_safe f s k t d :
    cmp_ok G (TAssoc s k t) -> m_safe_f t f -> wt G d t = true ->
    forall n acc pos, (pos <= length data)%nat -> wt G (VSeq acc) (TAssoc s k t) = true ->
      match des_assoc f (assoc_insert k) d n acc pos with (r, l, p) =>
        (p <= length data)%nat /\ wt G (VSeq l) (TAssoc s k t) = true
        /\ allowed ub st r end.
  Proof.
    intros Hc Hf Hd. induction n as [|n IH]; intros acc pos Hp Ha; cbn [des_assoc].
    { split; [lia|]. auto. }
    pose proof (Hf d pos Hp Hd) as S. destruct (f d pos) as [[r v] p]. cbn [m_safe_out] in S.
    destruct S as (S1 & S2 & S3). destruct r; try (split; [lia|]; auto).
    assert (Ha' : wt G (VSeq (assoc_insert k acc v)) (TAssoc s k t) = true)
      by now apply assoc_insert_wt.
    specialize (IH (assoc_insert k acc v) p ltac:(lia) Ha').
    destruct (des_assoc _ _ _ _ _ _) as [[r' l] p']. destruct IH as (I1 & I2 & I3).
    split; [lia|]. auto.
  Qed.

  Lemma m_des_inplace_safe dc f wrap cur d prior pos t t' :
    m_safe_f t' f -> wt G d t' = true -> (forall x, cur = Some x -> wt G x t' = true) ->
    wt G prior t = true -> (forall x, wt G x t' = true -> wt G (wrap x) t = true) ->
    (pos <= length data)%nat ->
    m_safe_out t pos (des_inplace dc f wrap cur d prior pos).
  Proof.
    intros Hf Hd Hc Hp Hw Hpos. unfold des_inplace. destruct dc.
    - assert (Hx : wt G (match cur with Some x => x | None => d end) t' = true)
        by (destruct cur; auto).
      pose proof (Hf _ pos Hpos Hx) as S. destruct (f _ pos) as [[r v] p]. cbn [m_safe_out] in *.
      destruct S as (S1 & S2 & S3). auto.
    - pose proof (Hf _ pos Hpos Hd) as S. destruct (f _ pos) as [[r v] p]. cbn [m_safe_out] in S.
      destruct S as (S1 & S2 & S3). destruct r; cbn [m_safe_out]; auto.
  Qed.

  Lemma m_des_ptr_safe f d prior pos t t' :
    m_safe_f t' f -> wt G d t' = true -> wt G prior t = true ->
    (forall x, wt G x t' = true -> wt G (VSome x) t = true) -> (pos <= length data)%nat ->
    m_safe_out t pos (des_ptr f d prior pos).
  Proof.
    intros Hf Hd Hp Hw Hpos. unfold des_ptr.
    pose proof (Hf _ pos Hpos Hd) as S. destruct (f _ pos) as [[r v] p]. cbn [m_safe_out] in S.
    destruct S as (S1 & S2 & S3). destruct r; cbn [m_safe_out]; auto.
  Qed.

  Lemma m_safe_out_weaken t pos pos' x : (pos <= pos')%nat -> m_safe_out t pos' x -> m_safe_out t pos x.
  Proof. destruct x as [[r v] p]. cbn [m_safe_out]. intros H (H1 & H2 & H3). split; [lia|auto]. Qed.

End MSafeLoops.

Section MSafe.
  Variables (G : tenv) (c : cfg) (data : list byte) (ub st : bool).
  Notation m_safe_out := (m_safe_out G data ub st).
  Notation m_safe_f := (m_safe_f G data ub st).
  Hypothesis (Hsm : small data).

  Lemma m_des_bytes_safe t l pos :
    wf G t = true -> bs t = true -> tall (flagged ub st) t = true ->
    (pos <= length data)%nat -> forallb (fun x => wt G x t) l = true ->
    match des_bytes c data t (length l) l pos with (r, l', p) =>
      (p <= length data)%nat /\ length l' = length l
      /\ forallb (fun x => wt G x t) l' = true /\ allowed ub st r end.
  Proof.
    intros Hw Hb Ht Hp Hl. rewrite des_bytes_eq by assumption.
    destruct (_ =? 0)%nat; [auto|].
    destruct (Nat.leb_spec (pos + length l * bsize t) (length data)); [|auto].
    destruct (parse_all _ _ _ _) as [vs|] eqn:E.
    - split; [lia|].
      assert (Hv : length vs = length l /\ Forall (fun v => wt G v t = true) vs).
      { eapply parse_all_forall; [|..|exact E]; [|apply window_length; lia].
        intros l0 v0 H1 H2. eapply objparse_wt; eauto. }
      destruct Hv as [H1 H2]. split; [exact H1|]. split; [|auto].
      rewrite forallb_forall. now rewrite Forall_forall in H2.
    - split; [lia|]. split; [reflexivity|]. split; [exact Hl|].
      split; [|discriminate]. intros _. destruct ub eqn:Eub; [reflexivity|exfalso].
      revert E. apply parse_all_some; [|apply window_length; lia].
      intros e He. apply objparse_some; auto.
      eapply tall_sub; [|exact Ht]. intros t0. unfold flagged. cbn [orb].
      intro H0. now apply andb_true_iff in H0.
  Qed.

  Lemma m_des_elems_safe (b : bool) f t l pos :
    wf G t = true -> tall (flagged ub st) t = true -> (b = true -> bs t = true) ->
    m_safe_f t f -> (pos <= length data)%nat -> forallb (fun x => wt G x t) l = true ->
    match des_elems c data b f t l pos with
    | (r, VSeq l', p) => (p <= length data)%nat /\ length l' = length l
      /\ forallb (fun x => wt G x t) l' = true /\ allowed ub st r
    | _ => False
    end.
  Proof.
    intros Hw Ht Hb Hf Hp Hl. unfold des_elems, seq_res. destruct b.
    - pose proof (m_des_bytes_safe t l pos Hw (Hb eq_refl) Ht Hp Hl) as S.
      destruct (des_bytes _ _ _ _ _ _) as [[r l'] p]. exact S.
    - pose proof (m_des_all_safe G data ub st f t Hf l pos Hp Hl) as S.
      destruct (des_all _ _ _) as [[r l'] p]. exact S.
  Qed.

  Lemma m_des_elems_safe_out (b : bool) f t' l pos t pos0 :
    wf G t' = true -> tall (flagged ub st) t' = true -> (b = true -> bs t' = true) ->
    m_safe_f t' f -> (pos0 <= pos <= length data)%nat -> forallb (fun x => wt G x t') l = true ->
    (forall l', length l' = length l -> forallb (fun x => wt G x t') l' = true -> wt G (VSeq l') t = true) ->
    m_safe_out t pos0 (des_elems c data b f t' l pos).
  Proof.
    intros H1 H2 H3 H4 H5 H6 H7.
    pose proof (m_des_elems_safe b f t' l pos H1 H2 H3 H4 ltac:(lia) H6) as S.
    destruct (des_elems _ _ _ _ _ _ _) as [[r v] p]. destruct v; try tauto.
    destruct S as (S1 & S2 & S3 & S4). cbn [m_safe_out]. split; [lia|]. split; auto.
  Qed.

  Hypothesis (HG : wf_env G) (Hds : wfsz (Some (dsize c)) = true).

  Lemma m_vec_resize_wt t n l r l' :
    wf G t = true -> forallb (fun x => wt G x t) l = true ->
    vec_resize G c t n l = (r, l') ->
    forallb (fun x => wt G x t) l' = true /\ allowed ub st r /\ (r = ROk -> length l' = N.to_nat n).
  Proof.
    intros Hw Hl. unfold vec_resize. destruct (over_limit c t n).
    { intro H; injection H as <- <-. repeat split; auto; discriminate. }
    destruct (_ || _); intro H; injection H as <- <-.
    - split; [|split; [auto|]].
      + rewrite forallb_forall in *. apply Forall_forall, vresize_forall.
        * now apply wt_dflt.
        * now rewrite Forall_forall.
      + intros _. apply vresize_length.
    - repeat split; auto; discriminate.
  Qed.

  Variable rec : nat -> val -> nat -> dres.
  Hypothesis Hrec : forall k, st = true -> m_safe_f (TRec k) (rec k).

  Lemma m_des_ty_safe t :
    wf G t = true -> tall (flagged ub st) t = true -> tallP (cmp_ok G) t ->
    m_safe_f t (des_ty G c data rec t).
  Proof.
    induction t using ty_ind'; intros Hw Hf Hcp prior pos Hp Hpr.
    - (* scalar *)
      cbn [des_ty nres]. pose proof (des_scalar_safe c w (match prior with VN n => n | _ => 0 end) data pos Hsm Hp) as S.
      cbn beta in S. destruct prior; try discriminate.
      destruct (des_scalar _ _ _ _ _) as [[r n'] p] eqn:E. destruct r; try tauto; cbn [m_safe_out nres].
      + split; [lia|]. split; [|auto]. cbn [wt]. now apply N.ltb_lt.
      + subst p. split; [lia|]. split; [|auto].
        rewrite des_scalar_eq in E by assumption. destruct (_ <=? _)%nat in E; [discriminate|].
        injection E as _ <-. exact Hpr.
    - (* bool *)
      cbn [des_ty]. pose proof (des_scalar_safe c 1 0 data pos Hsm Hp) as S. cbn beta in S.
      destruct (des_scalar _ _ _ _ _) as [[r n'] p]. destruct r; try tauto; cbn [m_safe_out].
      + destruct (n' <? 2) eqn:E; cbn [m_safe_out]; (split; [lia|]; split; [|auto]); [exact E|exact Hpr|].
        split; [|discriminate]. intros _. cbn [tall] in Hf. unfold flagged in Hf. cbn [not_bool] in Hf.
        destruct ub; [reflexivity|]. discriminate.
      + subst p. split; [lia|]. auto.
    - (* varint *)
      cbn [des_ty nres wf] in *.
      pose proof (des_varint_safe w zz (match prior with VN n => n | _ => 0 end) Hw data pos Hsm Hp) as S.
      cbn beta in S. destruct prior; try discriminate.
      destruct (des_varint _ _ _ _ _) as [[r n'] p] eqn:E. destruct r; try tauto; cbn [m_safe_out nres].
      + split; [lia|]. split; [|auto]. cbn [wt]. now apply N.ltb_lt.
      + subst p. split; [lia|]. split; [|auto].
        rewrite des_varint_eq in E by assumption. destruct (leb_value _) as [[? ?]|] in E; [discriminate|].
        injection E as _ <-. exact Hpr.
    - cbn [des_ty m_safe_out]. auto.
    - (* struct *)
      cbn [des_ty]. destruct (negb (s_expl si) && _); [cbn [m_safe_out]; auto|].
      destruct (as_bytes c (TStruct si ms)) eqn:Eb.
      + pose proof (m_des_bytes_safe (TStruct si ms) [prior] pos Hw (as_bytes_bs _ _ Eb) Hf Hp
          ltac:(cbn [forallb]; now rewrite Hpr)) as S.
        cbn [length] in S. destruct (des_bytes _ _ _ _ _ _) as [[r l] p].
        destruct S as (S1 & S2 & S3 & S4). destruct l as [|x [|]]; try discriminate S2.
        cbn [forallb] in S3. rewrite andb_true_r in S3. cbn [m_safe_out]. auto.
      + destruct prior; try discriminate. cbn [as_seq wt] in *.
        cbn [wf] in Hw. rewrite !andb_true_iff in Hw. destruct Hw as [[_ Hw] _].
        cbn [tall] in Hf. apply andb_true_iff in Hf as [_ Hf].
        cbn [tallP] in Hcp. destruct Hcp as [_ Hcp]. apply tallP_list in Hcp.
        assert (HF : Forall (fun m => m_safe_f m (des_ty G c data rec m)) ms).
        { rewrite forallb_forall in *. rewrite Forall_forall in *. intros m Hin. apply H; auto. }
        pose proof (m_des_many_safe G data ub st (des_ty G c data rec) ms HF l pos Hp Hpr) as S.
        destruct (des_many _ _ _ _) as [[r l'] p]. exact S.
    - (* named class *)
      cbn [des_ty]. apply Hrec; auto. cbn [tall] in Hf. unfold flagged in Hf. cbn [not_rec] in Hf.
      destruct st; auto. rewrite andb_false_r in Hf. discriminate.
    - (* array *)
      destruct prior; try discriminate. cbn [wt] in Hpr. apply andb_true_iff in Hpr as [Hn Hpr].
      cbn [des_ty as_seq]. cbn [wf] in Hw. apply andb_true_iff in Hw as [_ Hw].
      cbn [tall tallP] in *. apply andb_true_iff in Hf as [_ Hf]. destruct Hcp as [_ Hcp].
      apply m_des_elems_safe_out; auto; [apply as_bytes_bs|].
      intros l' Hl Hl'. cbn [wt]. now rewrite Hl, Hn, Hl'.
    - (* tuple *)
      destruct prior; try discriminate. cbn [wt] in Hpr. cbn [des_ty as_seq]. cbn [wf] in Hw.
      cbn [tall tallP] in *. apply andb_true_iff in Hf as [_ Hf]. destruct Hcp as [_ Hcp].
      apply tallP_list in Hcp.
      assert (HF : Forall (fun m => m_safe_f m (des_ty G c data rec m)) ts).
      { rewrite forallb_forall in *. rewrite Forall_forall in *. intros m Hin. apply H; auto. }
      pose proof (m_des_many_safe G data ub st (des_ty G c data rec) ts HF l pos Hp Hpr) as S.
      destruct (des_many _ _ _ _) as [[r l'] p]. exact S.
    - (* vec *)
      destruct prior; try discriminate. cbn [wt] in Hpr. cbn [des_ty as_seq].
      cbn [wf] in Hw. apply andb_true_iff in Hw as [Hs Hw]. apply (wfsz_sz_of c) in Hs; [|exact Hds].
      cbn [tall tallP] in *. apply andb_true_iff in Hf as [_ Hf]. destruct Hcp as [_ Hcp].
      assert (Hb : as_bytes c t && cg = true -> bs t = true)
        by (intro Hb; apply andb_true_iff in Hb as [Hb _]; eapply as_bytes_bs; eauto).
      assert (E : m_safe_out (TVec s cg t) pos
        match des_size c data (sz_of c s) pos with
            | (ROk, n, pos') =>
                match vec_resize G c t n l with
                | (ROk, l) => des_elems c data (as_bytes c t && cg) (des_ty G c data rec t) t l pos'
                | (r, l) => (r, VSeq l, pos')
                end
            | (r, _, pos') => (r, VSeq l, pos')
            end).
      { pose proof (des_size_safe c (sz_of c s) Hs data pos Hsm Hp) as S. cbn beta in S.
        destruct (des_size _ _ _ _) as [[r n] p]. destruct r; try tauto; cbn [m_safe_out].
        - destruct S as [S1 S2]. destruct (vec_resize G c t n l) as [r l'] eqn:Ev.
          pose proof (m_vec_resize_wt t n l r l' Hw Hpr Ev) as (V1 & V2 & V3).
          destruct r; try (cbn [m_safe_out wt]; split; [lia|]; auto).
          apply m_des_elems_safe_out; auto.
        - subst p. split; [lia|]. auto. }
      destruct (sz_of c s); [|exact E..].
      apply m_des_elems_safe_out; auto.
    - (* assoc *)
      cbn [des_ty].
      cbn [wf] in Hw. apply andb_true_iff in Hw as [Hs Hw]. apply (wfsz_sz_of c) in Hs; [|exact Hds].
      cbn [tall tallP] in *. apply andb_true_iff in Hf as [_ Hf]. destruct Hcp as [Hk Hcp].
      assert (L : forall n p, (p <= length data)%nat ->
        m_safe_out (TAssoc s k t) pos
          (seq_res (des_assoc (des_ty G c data rec t) (assoc_insert k) (dflt G t) n [] p))).
      { intros n p Hpp.
        pose proof (m_des_assoc_safe G data ub st (des_ty G c data rec t) s k t (dflt G t) Hk
           (IHt Hw Hf Hcp) (wt_dflt G t HG Hw) n [] p ltac:(lia) eq_refl) as S.
        unfold seq_res. destruct (des_assoc _ _ _ _ _ _) as [[r l] p']. cbn [m_safe_out].
        destruct S as (S1 & S2 & S3). split; [lia|]. auto. }
      pose proof (des_size_safe c (sz_of c s) Hs data pos Hsm Hp) as S. cbn beta in S.
      destruct (sz_of c s) eqn:Es; [apply L; lia|..];
      (destruct (des_size _ _ _ _) as [[r n] p]; destruct r; try tauto;
        [apply L; lia|cbn [m_safe_out]; subst p; auto]).
    - (* opt *)
      cbn [des_ty wf] in *. cbn [tall tallP] in *. apply andb_true_iff in Hf as [_ Hf].
      destruct Hcp as [_ Hcp]. unfold des_flag.
      pose proof (des_scalar_safe c 1 0 data pos Hsm Hp) as S. cbn beta in S.
      destruct (des_scalar _ _ _ _ _) as [[r n'] p]. destruct r; try tauto; cbn [m_safe_out].
      + destruct n' as [|q]; cbn [m_safe_out]; [split; [lia|]; auto|].
        eapply m_safe_out_weaken; [apply S|].
        eapply m_des_inplace_safe with (t' := t); auto; [now apply wt_dflt| |lia].
        intros x Hx. destruct prior; try discriminate. injection Hx as <-. exact Hpr.
      + subst p. auto.
    - (* optptr *)
      cbn [des_ty wf] in *. cbn [tall tallP] in *. apply andb_true_iff in Hf as [_ Hf].
      destruct Hcp as [_ Hcp]. unfold des_flag.
      pose proof (des_scalar_safe c 1 0 data pos Hsm Hp) as S. cbn beta in S.
      destruct (des_scalar _ _ _ _ _) as [[r n'] p]. destruct r; try tauto; cbn [m_safe_out].
      + destruct n' as [|q]; cbn [m_safe_out]; [split; [lia|]; auto|].
        eapply m_safe_out_weaken; [apply S|].
        eapply m_des_ptr_safe with (t' := t); auto; [now apply wt_dflt|lia].
      + subst p. auto.
    - (* ptr *)
      cbn [des_ty wf] in *. cbn [tall tallP] in *. apply andb_true_iff in Hf as [_ Hf].
      destruct Hcp as [_ Hcp].
      eapply m_des_ptr_safe with (t' := t); auto. now apply wt_dflt.
    - (* variant *)
      rewrite des_variant_eq.
      cbn [tall tallP] in *. apply andb_true_iff in Hf as [_ Hf].
      destruct Hcp as [_ Hcp]. apply tallP_list in Hcp.
      cbn [wf] in Hw. rewrite !andb_true_iff in Hw. destruct Hw as [[[[Hl Hm] Hd] Hi] Hw].
      pose proof (des_id_safe c ik data pos Hsm Hp) as S. cbn beta in S.
      destruct (des_id _ _ _ _) as [[r n'] p]. destruct r; try tauto; cbn [m_safe_out].
      + destruct (find_id meta n') as [i|] eqn:Ef; [|cbn [m_safe_out]; split; [lia|]; auto].
        apply find_id_some in Ef as [dc Ef].
        assert (Hi' : (i < length alts)%nat).
        { apply Nat.eqb_eq in Hm. rewrite <- Hm. apply nth_error_Some. congruence. }
        destruct (nth_error alts i) as [t'|] eqn:Ea; [|now apply nth_error_None in Ea; lia].
        eapply m_safe_out_weaken; [apply S|].
        pose proof (nth_error_In _ _ Ea) as Hin.
        rewrite forallb_forall in Hw, Hf. rewrite Forall_forall in H, Hcp.
        eapply m_des_inplace_safe with (t' := t'); auto; [now apply wt_dflt; auto|..|lia].
        * intros x Hx. destruct prior; try discriminate. cbn [active] in Hx.
          destruct (Nat.eqb_spec i i0) as [->|]; [|discriminate]. injection Hx as <-.
          cbn [wt] in Hpr. now rewrite Ea in Hpr.
        * intros x Hx. cbn [wt]. now rewrite Ea.
      + subst p. auto.
    - (* bitset *)
      cbn [des_ty]. unfold des_bitset. rewrite remaining_small by assumption.
      destruct (N.ltb_spec (N.of_nat (length data - pos)) (N.of_nat (bitset_bytes n)));
        [cbn [m_safe_out]; auto|].
      rewrite load_some by lia. cbn [m_safe_out wt]. split; [lia|]. split; [|auto].
      assert (L : forall e i m, length (get_bits e i m) = m)
        by (intros e i m; revert i; induction m; intro i; cbn; auto).
      now rewrite L, Nat.eqb_refl.
    - (* view *)
      destruct k as [s|n|]; cbn [des_ty].
      + cbn [wf] in Hw. apply (wfsz_sz_of c) in Hw; [|exact Hds].
        pose proof (des_size_safe c (sz_of c s) Hw data pos Hsm Hp) as S. cbn beta in S.
        destruct (des_size _ _ _ _) as [[r n] p]. destruct r; try tauto; cbn [m_safe_out];
          [|subst p; auto].
        assert (E : m_safe_out (TView (VwSized s)) pos
          (if remaining data p <? n then (RErr result_out_of_range, prior, p)
                else match load data p (N.to_nat n) with
                     | Some e => (ROk, VBytes e, (p + N.to_nat n)%nat)
                     | None => (RUB, prior, p)
                     end)).
        { rewrite remaining_small by (assumption || lia).
          destruct (N.ltb_spec (N.of_nat (length data - p)) n); cbn [m_safe_out]; [split; [lia|]; auto|].
          rewrite load_some by lia. cbn [m_safe_out wt]. split; [lia|]; auto. }
        destruct (sz_of c s); [|exact E..].
        rewrite load_some by lia. cbn [m_safe_out wt]. split; [lia|]; auto.
      + rewrite remaining_small by assumption.
        destruct (N.ltb_spec (N.of_nat (length data - pos)) (N.of_nat n)); [cbn [m_safe_out]; auto|].
        rewrite load_some by lia. cbn [m_safe_out wt]. rewrite window_length by lia.
        rewrite Nat.eqb_refl. split; [lia|]; auto.
      + rewrite load_some by lia. cbn [m_safe_out wt]. split; [lia|]; auto.
    - (* span *)
      destruct prior; try discriminate. cbn [wt] in Hpr. cbn [des_ty as_seq].
      cbn [wf] in Hw. apply andb_true_iff in Hw as [Hs Hw]. apply (wfsz_sz_of c) in Hs; [|exact Hds].
      cbn [tall tallP] in *. apply andb_true_iff in Hf as [_ Hf]. destruct Hcp as [_ Hcp].
      assert (E : m_safe_out (TSpan s t) pos
        match des_size c data (sz_of c s) pos with
            | (ROk, n, pos') =>
                if N.of_nat (length l) <? n
                then (RErr result_out_of_range, VSeq l, pos')
                else des_elems c data (as_bytes c t) (des_ty G c data rec t) t
                       (firstn (N.to_nat n) l) pos'
            | (r, _, pos') => (r, VSeq l, pos')
            end).
      { pose proof (des_size_safe c (sz_of c s) Hs data pos Hsm Hp) as S. cbn beta in S.
        destruct (des_size _ _ _ _) as [[r n] p]. destruct r; try tauto; cbn [m_safe_out].
        - destruct S as [S1 S2]. destruct (_ <? n); [cbn [m_safe_out wt]; split; [lia|]; auto|].
          apply m_des_elems_safe_out; auto; [apply as_bytes_bs|].
          rewrite forallb_forall in *. intros x Hin. apply Hpr.
          rewrite <- (firstn_skipn (N.to_nat n) l). apply in_or_app. now left.
        - subst p. split; [lia|]. auto. }
      destruct (sz_of c s); [|exact E..].
      apply m_des_elems_safe_out; auto. apply as_bytes_bs.
  Qed.
End MSafe.

Lemma ssound_weaken G (Q Q' : ty -> Prop) ts p : (forall t, Q t -> Q' t) -> ssound G Q ts p -> ssound G Q' ts p.
Proof.
  intro H. induction p as [|e| |i t k IH|t f k IH|f k IH|k IH|n k IH|k IH]; cbn [ssound]; auto.
  - intros (H1 & H2 & H3 & H4). repeat split; auto.
  - intros (H1 & H2 & H3 & H4 & H5). repeat split; auto.
  - intros (H1 & H2). split; auto.
Qed.

Lemma ssound_and G Q Q' ts p : ssound G Q ts p -> ssound G Q' ts p -> ssound G (fun t => Q t /\ Q' t) ts p.
Proof.
  induction p as [|e| |i t k IH|t f k IH|f k IH|k IH|n k IH|k IH]; cbn [ssound]; auto.
  - intros (H1 & H2 & H3 & H4) (_ & _ & H5 & H6). repeat split; auto.
  - intros (H1 & H2 & H3 & H4 & H5) (_ & _ & H6 & _ & H7). repeat split; auto.
  - intros [H1 H2] [_ H3]. split; auto.
Qed.

Section MoveSafe.
  Variables (G : tenv) (c : cfg) (data : list byte) (ub : bool).
  Hypothesis (HG : wf_env G) (Hds : wfsz (Some (dsize c)) = true) (Hsm : small data).

  Lemma srun_in_safe (Q : ty -> Prop) rd ts :
    (forall t, Q t -> scan_ok G ub true t) ->
    (forall t, wf G t = true -> Q t -> m_safe_f G data ub true t (rd t)) ->
    forall p self pos, ssound G Q ts p -> within G (length data) ts pos p ->
      object G self ts -> (pos <= length data)%nat ->
      match srun_in (fun q => N.to_nat (remaining data q)) rd (des_ty G c data no_rec) p self pos with (r, l, p') =>
        (p' <= length data)%nat /\ object G l ts /\ allowed ub true r end.
  Proof.
    intros HQ Hrd. induction p as [|e| |i t k IH|t f k IH|f k IH|k IH|n k IH|k IH];
      intros self pos Hs Hin Ho Hp; cbn [srun_in ssound within] in *.
    - auto.
    - auto.
    - auto.
    - destruct Hs as ((t0 & Ht & Hx) & Hw & Hq & Hk).
      destruct (forall2b_nth_l _ _ _ _ _ Ho Ht) as (x & Ex & Hwx). rewrite Ex.
      pose proof (Hrd t Hw Hq x pos Hp ltac:(now rewrite Hx)) as S.
      destruct (rd t x pos) as [[r y] p']. cbn [m_safe_out] in S. destruct S as (S1 & S2 & S3).
      assert (Ho' : object G (set_nth i y self) ts).
      { apply (forall2b_set _ _ _ _ _ t0 Ho Ht). now rewrite <- Hx. }
      destruct r; try (split; [lia|]; split; auto; fail). apply IH; auto.
    - destruct Hs as (Hw & Hn & Hq & Hf & Hk).
      pose proof (loc_safe G c data ub HG Hds Hsm t Hw Hn (HQ _ Hq) (f self) pos Hp (Hf self Ho)) as S.
      destruct (des_ty G c data no_rec t (f self) pos) as [[r y] p']. cbn [safe_out] in S. destruct S as (S1 & S2 & S3).
      destruct r; try (split; [lia|]; split; auto; fail). apply IH; auto; [|lia]. apply Hin; auto. lia.
    - destruct Hs as [Hf Hk]. apply IH; auto.
    - apply IH; auto.
    - destruct Hin as [H1 H2]. apply IH; auto.
    - rewrite remaining_small by auto. rewrite Nat2N.id. apply IH; auto.
  Qed.

  Variable F : sfuns.
  Hypothesis (HF : forall k, ssound G (scan_ok G ub true) (t_mems G k) (F k)).
  Hypothesis (HI : forall k pos, (pos <= length data)%nat -> within G (length data) (t_mems G k) pos (F k)).

  Lemma sdes_rec_safe fuel k : m_safe_f G data ub true (TRec k) (sdes_rec G F c data fuel k).
  Proof.
    revert k. induction fuel as [|f IH]; intros k prior pos Hp Hpr; cbn [sdes_rec].
    - cbn [m_safe_out]. split; [lia|]. split; auto. split; [discriminate|auto].
    - destruct prior; try discriminate. cbn [wt as_seq] in *.
      assert (Hrd : forall t, wf G t = true -> scan_ok G ub true t ->
        m_safe_f G data ub true t (des_ty G c data (sdes_rec G F c data f) t)).
      { intros t Hw [Hf Hc]. apply m_des_ty_safe; auto. }
      pose proof (srun_in_safe _ _ (t_mems G k) (fun t H => H) Hrd (F k) l pos (HF k) (HI k pos Hp) Hpr Hp) as S.
      destruct (srun_in _ _ _ _ _ _) as [[r l'] p]. exact S.
  Qed.

  Theorem sdes_safe fuel t :
    wf G t = true -> scan_ok G ub true t -> m_safe_f G data ub true t (sdes G F c data fuel t).
  Proof. intros Hw [Hf Hc]. unfold sdes. apply m_des_ty_safe; auto. intros k _. apply sdes_rec_safe. Qed.
End MoveSafe.

(** ** Functions that do not move *)

Lemma srun_in_still left rd loc p : forall self pos, srun_in left rd loc (still p) self pos = run_in rd loc p self pos.
Proof.
  induction p as [|e| |i t k IH|t f k IH|f k IH]; intros self pos; cbn [still srun_in run_in]; auto.
  - destruct (nth_error self i) as [x|]; auto. destruct (rd t x pos) as [[r y] p']. destruct r; auto.
  - destruct (loc t (f self) pos) as [[r y] p']. destruct r; auto.
Qed.
