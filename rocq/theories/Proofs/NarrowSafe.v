(** Safety of reading where size types may be wider than std::size_t (Model/Narrow.v). *)

From Coq Require Import List NArith ZArith Lia Bool Arith.
From Coq Require Import ZifyBool ZifyNat ZifyN.
From Verif Require Import Base.Bytes Model.Types Model.Machine Model.Varint Model.Out Model.In Model.Narrow
  Spec.Leb128 Spec.Wire Proofs.VarintP Proofs.OutP Proofs.InBase Proofs.InSafe Proofs.NarrowP.
Import ListNotations.
Local Open Scope N_scope.

Section Safe.
  Variables (W : N) (G : tenv) (c : cfg) (data : list byte) (ub st : bool).
  Notation safe_out := (safe_out G data ub st).
  Notation safe_f := (safe_f G data ub st).
  Hypothesis (Hsm : small data).
  Hypothesis (HG : wf_env G) (Hds : wfsz (Some (dsize c)) = true).

  Lemma nvec_resize_wt t n l r l' :
    wf G t = true -> forallb (fun x => wt G x t) l = true ->
    nvec_resize W G c t n l = (r, l') ->
    forallb (fun x => wt G x t) l' = true /\ allowed ub st r /\ (r = ROk -> length l' = N.to_nat (n mod 2 ^ W)).
  Proof.
    intros Hw Hl. unfold nvec_resize. destruct (over_limit c t n).
    { intro H; injection H as <- <-. repeat split; auto; discriminate. }
    destruct (_ || _); intro H; injection H as <- <-.
    - split; [|split; [auto|]].
      + rewrite forallb_forall in *. apply Forall_forall, vresize_forall.
        * now apply wt_dflt.
        * now rewrite Forall_forall.
      + intros _. apply vresize_length.
    - repeat split; auto; discriminate.
  Qed.

  Variable rec : nat -> val -> nat -> dres.
  Hypothesis Hrec : forall k, st = true -> safe_f (TRec k) (rec k).

  Lemma ndes_ty_safe t :
    wf G t = true -> tall (flagged ub st) t = true -> tallP (cmp_ok G) t ->
    safe_f t (ndes_ty W G c data rec t).
  Proof.
    induction t using ty_ind'; intros Hw Hf Hcp prior pos Hp Hpr.
    - (* scalar *)
      cbn [ndes_ty nres]. pose proof (des_scalar_safe c w (match prior with VN n => n | _ => 0 end) data pos Hsm Hp) as S.
      cbn beta in S. destruct prior; try discriminate.
      destruct (des_scalar _ _ _ _ _) as [[r n'] p] eqn:E. destruct r; try tauto; cbn [safe_out nres].
      + split; [lia|]. split; [|auto]. cbn [wt]. now apply N.ltb_lt.
      + subst p. split; [lia|]. split; [|auto].
        rewrite des_scalar_eq in E by assumption. destruct (_ <=? _)%nat in E; [discriminate|].
        injection E as _ <-. exact Hpr.
    - (* bool *)
      cbn [ndes_ty]. pose proof (des_scalar_safe c 1 0 data pos Hsm Hp) as S. cbn beta in S.
      destruct (des_scalar _ _ _ _ _) as [[r n'] p]. destruct r; try tauto; cbn [safe_out].
      + destruct (n' <? 2) eqn:E; cbn [safe_out]; (split; [lia|]; split; [|auto]); [exact E|exact Hpr|].
        split; [|discriminate]. intros _. cbn [tall] in Hf. unfold flagged in Hf. cbn [not_bool] in Hf.
        destruct ub; [reflexivity|]. discriminate.
      + subst p. split; [lia|]. auto.
    - (* varint *)
      cbn [ndes_ty nres wf] in *.
      pose proof (des_varint_safe w zz (match prior with VN n => n | _ => 0 end) Hw data pos Hsm Hp) as S.
      cbn beta in S. destruct prior; try discriminate.
      destruct (des_varint _ _ _ _ _) as [[r n'] p] eqn:E. destruct r; try tauto; cbn [safe_out nres].
      + split; [lia|]. split; [|auto]. cbn [wt]. now apply N.ltb_lt.
      + subst p. split; [lia|]. split; [|auto].
        rewrite des_varint_eq in E by assumption. destruct (leb_value _) as [[? ?]|] in E; [discriminate|].
        injection E as _ <-. exact Hpr.
    - cbn [ndes_ty safe_out]. auto.
    - (* struct *)
      cbn [ndes_ty]. destruct (negb (s_expl si) && _); [cbn [safe_out]; auto|].
      destruct (as_bytes c (TStruct si ms)) eqn:Eb.
      + pose proof (des_bytes_safe G c data ub st Hsm (TStruct si ms) [prior] pos Hw (as_bytes_bs _ _ Eb) Hf Hp
          ltac:(cbn [forallb]; now rewrite Hpr)) as S.
        cbn [length] in S. destruct (des_bytes _ _ _ _ _ _) as [[r l] p].
        destruct S as (S1 & S2 & S3 & S4). destruct l as [|x [|]]; try discriminate S2.
        cbn [forallb] in S3. rewrite andb_true_r in S3. cbn [safe_out]. auto.
      + destruct prior; try discriminate. cbn [as_seq wt] in *.
        cbn [wf] in Hw. rewrite !andb_true_iff in Hw. destruct Hw as [[_ Hw] _].
        cbn [tall] in Hf. apply andb_true_iff in Hf as [_ Hf].
        cbn [tallP] in Hcp. destruct Hcp as [_ Hcp]. apply tallP_list in Hcp.
        assert (HF : Forall (fun m => safe_f m (ndes_ty W G c data rec m)) ms).
        { rewrite forallb_forall in *. rewrite Forall_forall in *. intros m Hin. apply H; auto. }
        pose proof (des_many_safe G data ub st (ndes_ty W G c data rec) ms HF l pos Hp Hpr) as S.
        destruct (des_many _ _ _ _) as [[r l'] p]. exact S.
    - (* named class *)
      cbn [ndes_ty]. apply Hrec; auto. cbn [tall] in Hf. unfold flagged in Hf. cbn [not_rec] in Hf.
      destruct st; auto. rewrite andb_false_r in Hf. discriminate.
    - (* array *)
      destruct prior; try discriminate. cbn [wt] in Hpr. apply andb_true_iff in Hpr as [Hn Hpr].
      cbn [ndes_ty as_seq]. cbn [wf] in Hw. apply andb_true_iff in Hw as [_ Hw].
      cbn [tall tallP] in *. apply andb_true_iff in Hf as [_ Hf]. destruct Hcp as [_ Hcp].
      apply des_elems_safe_out; auto; [apply as_bytes_bs|].
      intros l' Hl Hl'. cbn [wt]. now rewrite Hl, Hn, Hl'.
    - (* tuple *)
      destruct prior; try discriminate. cbn [wt] in Hpr. cbn [ndes_ty as_seq]. cbn [wf] in Hw.
      cbn [tall tallP] in *. apply andb_true_iff in Hf as [_ Hf]. destruct Hcp as [_ Hcp].
      apply tallP_list in Hcp.
      assert (HF : Forall (fun m => safe_f m (ndes_ty W G c data rec m)) ts).
      { rewrite forallb_forall in *. rewrite Forall_forall in *. intros m Hin. apply H; auto. }
      pose proof (des_many_safe G data ub st (ndes_ty W G c data rec) ts HF l pos Hp Hpr) as S.
      destruct (des_many _ _ _ _) as [[r l'] p]. exact S.
    - (* vec *)
      destruct prior; try discriminate. cbn [wt] in Hpr. cbn [ndes_ty as_seq].
      cbn [wf] in Hw. apply andb_true_iff in Hw as [Hs Hw]. apply (wfsz_sz_of c) in Hs; [|exact Hds].
      cbn [tall tallP] in *. apply andb_true_iff in Hf as [_ Hf]. destruct Hcp as [_ Hcp].
      assert (Hb : as_bytes c t && cg = true -> bs t = true)
        by (intro Hb; apply andb_true_iff in Hb as [Hb _]; eapply as_bytes_bs; eauto).
      assert (E : safe_out (TVec s cg t) pos
        match des_size c data (sz_of c s) pos with
            | (ROk, n, pos') =>
                match nvec_resize W G c t n l with
                | (ROk, l) => des_elems c data (as_bytes c t && cg) (ndes_ty W G c data rec t) t l pos'
                | (r, l) => (r, VSeq l, pos')
                end
            | (r, _, pos') => (r, VSeq l, pos')
            end).
      { pose proof (des_size_safe c (sz_of c s) Hs data pos Hsm Hp) as S. cbn beta in S.
        destruct (des_size _ _ _ _) as [[r n] p]. destruct r; try tauto; cbn [safe_out].
        - destruct S as [S1 S2]. destruct (nvec_resize W G c t n l) as [r l'] eqn:Ev.
          pose proof (nvec_resize_wt t n l r l' Hw Hpr Ev) as (V1 & V2 & V3).
          destruct r; try (cbn [safe_out wt]; split; [lia|]; auto).
          apply des_elems_safe_out; auto.
        - subst p. split; [lia|]. auto. }
      destruct (sz_of c s); [|exact E..].
      apply des_elems_safe_out; auto.
    - (* assoc *)
      cbn [ndes_ty].
      cbn [wf] in Hw. apply andb_true_iff in Hw as [Hs Hw]. apply (wfsz_sz_of c) in Hs; [|exact Hds].
      cbn [tall tallP] in *. apply andb_true_iff in Hf as [_ Hf]. destruct Hcp as [Hk Hcp].
      assert (L : forall n p, (pos <= p <= length data)%nat ->
        safe_out (TAssoc s k t) pos
          (seq_res (des_assoc (ndes_ty W G c data rec t) (assoc_insert k) (dflt G t) n [] p))).
      { intros n p Hpp.
        pose proof (des_assoc_safe G data ub st (ndes_ty W G c data rec t) s k t (dflt G t) Hk
           (IHt Hw Hf Hcp) (wt_dflt G t HG Hw) n [] p ltac:(lia) eq_refl) as S.
        unfold seq_res. destruct (des_assoc _ _ _ _ _ _) as [[r l] p']. cbn [safe_out].
        destruct S as (S1 & S2 & S3). split; [lia|]. auto. }
      pose proof (des_size_safe c (sz_of c s) Hs data pos Hsm Hp) as S. cbn beta in S.
      destruct (sz_of c s) eqn:Es; [apply L; lia|..];
      (destruct (des_size _ _ _ _) as [[r n] p]; destruct r; try tauto;
        [apply L; lia|cbn [safe_out]; subst p; auto]).
    - (* opt *)
      cbn [ndes_ty wf] in *. cbn [tall tallP] in *. apply andb_true_iff in Hf as [_ Hf].
      destruct Hcp as [_ Hcp]. unfold des_flag.
      pose proof (des_scalar_safe c 1 0 data pos Hsm Hp) as S. cbn beta in S.
      destruct (des_scalar _ _ _ _ _) as [[r n'] p]. destruct r; try tauto; cbn [safe_out].
      + destruct n' as [|q]; cbn [safe_out]; [split; [lia|]; auto|].
        eapply safe_out_weaken; [apply S|].
        eapply des_inplace_safe with (t' := t); auto; [now apply wt_dflt| |lia].
        intros x Hx. destruct prior; try discriminate. injection Hx as <-. exact Hpr.
      + subst p. auto.
    - (* optptr *)
      cbn [ndes_ty wf] in *. cbn [tall tallP] in *. apply andb_true_iff in Hf as [_ Hf].
      destruct Hcp as [_ Hcp]. unfold des_flag.
      pose proof (des_scalar_safe c 1 0 data pos Hsm Hp) as S. cbn beta in S.
      destruct (des_scalar _ _ _ _ _) as [[r n'] p]. destruct r; try tauto; cbn [safe_out].
      + destruct n' as [|q]; cbn [safe_out]; [split; [lia|]; auto|].
        eapply safe_out_weaken; [apply S|].
        eapply des_ptr_safe with (t' := t); auto; [now apply wt_dflt|lia].
      + subst p. auto.
    - (* ptr *)
      cbn [ndes_ty wf] in *. cbn [tall tallP] in *. apply andb_true_iff in Hf as [_ Hf].
      destruct Hcp as [_ Hcp].
      eapply des_ptr_safe with (t' := t); auto. now apply wt_dflt.
    - (* variant *)
      rewrite nvariant_eq.
      cbn [tall tallP] in *. apply andb_true_iff in Hf as [_ Hf].
      destruct Hcp as [_ Hcp]. apply tallP_list in Hcp.
      cbn [wf] in Hw. rewrite !andb_true_iff in Hw. destruct Hw as [[[[Hl Hm] Hd] Hi] Hw].
      pose proof (des_id_safe c ik data pos Hsm Hp) as S. cbn beta in S.
      destruct (des_id _ _ _ _) as [[r n'] p]. destruct r; try tauto; cbn [safe_out].
      + destruct (find_id meta n') as [i|] eqn:Ef; [|cbn [safe_out]; split; [lia|]; auto].
        apply find_id_some in Ef as [dc Ef].
        assert (Hi' : (i < length alts)%nat).
        { apply Nat.eqb_eq in Hm. rewrite <- Hm. apply nth_error_Some. congruence. }
        destruct (nth_error alts i) as [t'|] eqn:Ea; [|now apply nth_error_None in Ea; lia].
        eapply safe_out_weaken; [apply S|].
        pose proof (nth_error_In _ _ Ea) as Hin.
        rewrite forallb_forall in Hw, Hf. rewrite Forall_forall in H, Hcp.
        eapply des_inplace_safe with (t' := t'); auto; [now apply wt_dflt; auto|..|lia].
        * intros x Hx. destruct prior; try discriminate. cbn [active] in Hx.
          destruct (Nat.eqb_spec i i0) as [->|]; [|discriminate]. injection Hx as <-.
          cbn [wt] in Hpr. now rewrite Ea in Hpr.
        * intros x Hx. cbn [wt]. now rewrite Ea.
      + subst p. auto.
    - (* bitset *)
      cbn [ndes_ty]. unfold des_bitset. rewrite remaining_small by assumption.
      destruct (N.ltb_spec (N.of_nat (length data - pos)) (N.of_nat (bitset_bytes n)));
        [cbn [safe_out]; auto|].
      rewrite load_some by lia. cbn [safe_out wt]. split; [lia|]. split; [|auto].
      assert (L : forall e i m, length (get_bits e i m) = m)
        by (intros e i m; revert i; induction m; intro i; cbn; auto).
      now rewrite L, Nat.eqb_refl.
    - (* view *)
      destruct k as [s|n|]; cbn [ndes_ty].
      + cbn [wf] in Hw. apply (wfsz_sz_of c) in Hw; [|exact Hds].
        pose proof (des_size_safe c (sz_of c s) Hw data pos Hsm Hp) as S. cbn beta in S.
        destruct (des_size _ _ _ _) as [[r n] p]. destruct r; try tauto; cbn [safe_out];
          [|subst p; auto].
        assert (E : safe_out (TView (VwSized s)) pos
          (if remaining data p <? n then (RErr result_out_of_range, prior, p)
                else match load data p (N.to_nat n) with
                     | Some e => (ROk, VBytes e, (p + N.to_nat n)%nat)
                     | None => (RUB, prior, p)
                     end)).
        { rewrite remaining_small by (assumption || lia).
          destruct (N.ltb_spec (N.of_nat (length data - p)) n); cbn [safe_out]; [split; [lia|]; auto|].
          rewrite load_some by lia. cbn [safe_out wt]. split; [lia|]; auto. }
        destruct (sz_of c s); [|exact E..].
        rewrite load_some by lia. cbn [safe_out wt]. split; [lia|]; auto.
      + rewrite remaining_small by assumption.
        destruct (N.ltb_spec (N.of_nat (length data - pos)) (N.of_nat n)); [cbn [safe_out]; auto|].
        rewrite load_some by lia. cbn [safe_out wt]. rewrite window_length by lia.
        rewrite Nat.eqb_refl. split; [lia|]; auto.
      + rewrite load_some by lia. cbn [safe_out wt]. split; [lia|]; auto.
    - (* span *)
      destruct prior; try discriminate. cbn [wt] in Hpr. cbn [ndes_ty as_seq].
      cbn [wf] in Hw. apply andb_true_iff in Hw as [Hs Hw]. apply (wfsz_sz_of c) in Hs; [|exact Hds].
      cbn [tall tallP] in *. apply andb_true_iff in Hf as [_ Hf]. destruct Hcp as [_ Hcp].
      assert (E : safe_out (TSpan s t) pos
        match des_size c data (sz_of c s) pos with
            | (ROk, n, pos') =>
                if N.of_nat (length l) <? n
                then (RErr result_out_of_range, VSeq l, pos')
                else des_elems c data (as_bytes c t) (ndes_ty W G c data rec t) t
                       (firstn (N.to_nat n) l) pos'
            | (r, _, pos') => (r, VSeq l, pos')
            end).
      { pose proof (des_size_safe c (sz_of c s) Hs data pos Hsm Hp) as S. cbn beta in S.
        destruct (des_size _ _ _ _) as [[r n] p]. destruct r; try tauto; cbn [safe_out].
        - destruct S as [S1 S2]. destruct (_ <? n); [cbn [safe_out wt]; split; [lia|]; auto|].
          apply des_elems_safe_out; auto; [apply as_bytes_bs|].
          rewrite forallb_forall in *. intros x Hin. apply Hpr.
          rewrite <- (firstn_skipn (N.to_nat n) l). apply in_or_app. now left.
        - subst p. split; [lia|]. auto. }
      destruct (sz_of c s); [|exact E..].
      apply des_elems_safe_out; auto. apply as_bytes_bs.
  Qed.
End Safe.

Section SafeRec.
  Variables (W : N) (G : tenv) (c : cfg) (data : list byte) (ub st : bool).
  Hypothesis (HG : wf_env G) (Hds : wfsz (Some (dsize c)) = true) (Hsm : small data).
  Hypothesis (Hcmp : tallP_env (cmp_ok G) G).
  Hypothesis (Hfl : tall_env (flagged ub st) G).

  Lemma ndes_rec_safe fuel k : st = true -> safe_f G data ub st (TRec k) (ndes_rec W G c data fuel k).
  Proof.
    intro Hst. revert k. induction fuel as [|f IH]; intros k prior pos Hp Hpr; cbn [ndes_rec].
    - cbn [safe_out]. split; [lia|]. split; auto. split; [discriminate|auto].
    - destruct prior; try discriminate. cbn [wt as_seq] in *.
      assert (HF : Forall (fun m => safe_f G data ub st m (ndes_ty W G c data (ndes_rec W G c data f) m)) (t_mems G k)).
      { rewrite Forall_forall. intros m Hin. apply ndes_ty_safe; auto.
        - destruct (HG k) as [Hw _]. rewrite forallb_forall in Hw. auto.
        - specialize (Hfl k). rewrite forallb_forall in Hfl. auto.
        - specialize (Hcmp k). rewrite Forall_forall in Hcmp. auto. }
      pose proof (des_many_safe G data ub st _ _ HF l pos Hp Hpr) as S.
      unfold seq_res. destruct (des_many _ _ _ _) as [[r l'] p]. exact S.
  Qed.

  Lemma ndes_safe fuel t :
    wf G t = true -> tall (flagged ub st) t = true -> tallP (cmp_ok G) t ->
    safe_f G data ub st t (ndes W G c data fuel t).
  Proof. intros. unfold ndes. apply ndes_ty_safe; auto. intros k Hst. now apply ndes_rec_safe. Qed.

  Lemma nin_call_safe fuel ts :
    forallb (wf G) ts = true -> forallb (tall (flagged ub st)) ts = true -> Forall (tallP (cmp_ok G)) ts ->
    forall priors pos, (pos <= length data)%nat ->
      forall2b (fun x m => wt G x m) priors ts = true ->
      match nin_call W G c data fuel ts priors pos with (r, l, p) =>
        (pos <= p <= length data)%nat /\ forall2b (fun x m => wt G x m) l ts = true
        /\ allowed ub st r end.
  Proof.
    intros H1 H2 H3. apply des_many_safe. rewrite forallb_forall in *. rewrite Forall_forall in *.
    intros m Hin. apply ndes_safe; auto.
  Qed.
End SafeRec.
