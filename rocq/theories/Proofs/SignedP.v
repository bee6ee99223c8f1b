(** Reading with signed size types (Model/SignedSize.v): safety, and the round trip of containers
    whose sizes are not negative. *)

From Coq Require Import List NArith ZArith Lia Bool Arith.
From Coq Require Import ZifyBool ZifyNat ZifyN.
From Verif Require Import Base.Bytes Model.Types Model.Machine Model.Varint Model.Out Model.In Model.SignedSize
  Spec.Leb128 Spec.Wire Proofs.VarintP Proofs.OutP Proofs.InBase Proofs.InSafe Proofs.InLocal Proofs.InPrior Proofs.InRound.
Import ListNotations.
Local Open Scope N_scope.

Section Variant.
  Variables (sgn : sizety -> bool) (G : tenv) (c : cfg) (data : list byte).
  Variable rec : nat -> val -> nat -> dres.

  Lemma gvariant_eq ik meta alts prior pos :
    gdes_ty sgn G c data rec (TVariant ik meta alts) prior pos =
    match des_id c data ik pos with
    | (ROk, id, pos') =>
        match find_id meta id with
        | None => (RErr bad_message, prior, pos')
        | Some i =>
            match nth_error alts i with
            | Some t' =>
                des_inplace (match nth_error meta i with Some (_, b) => b | None => true end)
                  (gdes_ty sgn G c data rec t') (VAlt i) (active i prior) (dflt G t') prior pos'
            | None => (RUB, prior, pos')
            end
        end
    | (r, _, pos') => (r, prior, pos')
    end.
  Proof.
    cbn [gdes_ty]. destruct (des_id c data ik pos) as [[[] id] pos']; try reflexivity.
    destruct (find_id meta id) as [i|]; [|reflexivity].
    set (dc := match nth_error meta i with Some (_, b) => b | None => true end). clearbody dc.
    generalize (VAlt i) as wrap. generalize (active i prior) as cur. intros cur wrap.
    revert i. induction alts as [|t l IH]; intros [|i]; cbn; auto.
  Qed.
End Variant.

Lemma gdes_size_safe sgn c s : wfsz (Some s) = true ->
  forall data pos, small data -> (pos <= length data)%nat ->
  match gdes_size sgn c data s pos with
  | (ROk, _, p) => (pos <= p <= length data)%nat
  | (RErr _, _, p) => p = pos
  | _ => False
  end.
Proof.
  intros Hs data pos Hsm Hp. pose proof (des_size_safe c s Hs data pos Hsm Hp) as S. cbn beta in S. unfold gdes_size.
  destruct (des_size c data s pos) as [[r n] p]. destruct r; tauto.
Qed.

Section Safe.
  Variables (sgn : sizety -> bool) (G : tenv) (c : cfg) (data : list byte) (ub st : bool).
  Notation safe_out := (safe_out G data ub st).
  Notation safe_f := (safe_f G data ub st).
  Hypothesis (Hsm : small data).
  Hypothesis (HG : wf_env G) (Hds : wfsz (Some (dsize c)) = true).

  Variable rec : nat -> val -> nat -> dres.
  Hypothesis Hrec : forall k, st = true -> safe_f (TRec k) (rec k).

  Lemma gdes_ty_safe t :
    wf G t = true -> tall (flagged ub st) t = true -> tallP (cmp_ok G) t ->
    safe_f t (gdes_ty sgn G c data rec t).
  Proof.
    induction t using ty_ind'; intros Hw Hf Hcp prior pos Hp Hpr.
    - (* scalar *)
      cbn [gdes_ty nres]. pose proof (des_scalar_safe c w (match prior with VN n => n | _ => 0 end) data pos Hsm Hp) as S.
      cbn beta in S. destruct prior; try discriminate.
      destruct (des_scalar _ _ _ _ _) as [[r n'] p] eqn:E. destruct r; try tauto; cbn [safe_out nres].
      + split; [lia|]. split; [|auto]. cbn [wt]. now apply N.ltb_lt.
      + subst p. split; [lia|]. split; [|auto].
        rewrite des_scalar_eq in E by assumption. destruct (_ <=? _)%nat in E; [discriminate|].
        injection E as _ <-. exact Hpr.
    - (* bool *)
      cbn [gdes_ty]. pose proof (des_scalar_safe c 1 0 data pos Hsm Hp) as S. cbn beta in S.
      destruct (des_scalar _ _ _ _ _) as [[r n'] p]. destruct r; try tauto; cbn [safe_out].
      + destruct (n' <? 2) eqn:E; cbn [safe_out]; (split; [lia|]; split; [|auto]); [exact E|exact Hpr|].
        split; [|discriminate]. intros _. cbn [tall] in Hf. unfold flagged in Hf. cbn [not_bool] in Hf.
        destruct ub; [reflexivity|]. discriminate.
      + subst p. split; [lia|]. auto.
    - (* varint *)
      cbn [gdes_ty nres wf] in *.
      pose proof (des_varint_safe w zz (match prior with VN n => n | _ => 0 end) Hw data pos Hsm Hp) as S.
      cbn beta in S. destruct prior; try discriminate.
      destruct (des_varint _ _ _ _ _) as [[r n'] p] eqn:E. destruct r; try tauto; cbn [safe_out nres].
      + split; [lia|]. split; [|auto]. cbn [wt]. now apply N.ltb_lt.
      + subst p. split; [lia|]. split; [|auto].
        rewrite des_varint_eq in E by assumption. destruct (leb_value _) as [[? ?]|] in E; [discriminate|].
        injection E as _ <-. exact Hpr.
    - cbn [gdes_ty safe_out]. auto.
    - (* struct *)
      cbn [gdes_ty]. destruct (negb (s_expl si) && _); [cbn [safe_out]; auto|].
      destruct (as_bytes c (TStruct si ms)) eqn:Eb.
      + pose proof (InSafe.des_bytes_safe G c data ub st Hsm (TStruct si ms) [prior] pos Hw (as_bytes_bs _ _ Eb) Hf Hp
          ltac:(cbn [forallb]; now rewrite Hpr)) as S.
        cbn [length] in S. destruct (des_bytes _ _ _ _ _ _) as [[r l] p].
        destruct S as (S1 & S2 & S3 & S4). destruct l as [|x [|]]; try discriminate S2.
        cbn [forallb] in S3. rewrite andb_true_r in S3. cbn [safe_out]. auto.
      + destruct prior; try discriminate. cbn [as_seq wt] in *.
        cbn [wf] in Hw. rewrite !andb_true_iff in Hw. destruct Hw as [[_ Hw] _].
        cbn [tall] in Hf. apply andb_true_iff in Hf as [_ Hf].
        cbn [tallP] in Hcp. destruct Hcp as [_ Hcp]. apply tallP_list in Hcp.
        assert (HF : Forall (fun m => safe_f m (gdes_ty sgn G c data rec m)) ms).
        { rewrite forallb_forall in *. rewrite Forall_forall in *. intros m Hin. apply H; auto. }
        pose proof (des_many_safe G data ub st (gdes_ty sgn G c data rec) ms HF l pos Hp Hpr) as S.
        destruct (des_many _ _ _ _) as [[r l'] p]. exact S.
    - (* named class *)
      cbn [gdes_ty]. apply Hrec; auto. cbn [tall] in Hf. unfold flagged in Hf. cbn [not_rec] in Hf.
      destruct st; auto. rewrite andb_false_r in Hf. discriminate.
    - (* array *)
      destruct prior; try discriminate. cbn [wt] in Hpr. apply andb_true_iff in Hpr as [Hn Hpr].
      cbn [gdes_ty as_seq]. cbn [wf] in Hw. apply andb_true_iff in Hw as [_ Hw].
      cbn [tall tallP] in *. apply andb_true_iff in Hf as [_ Hf]. destruct Hcp as [_ Hcp].
      apply des_elems_safe_out; auto; [apply as_bytes_bs|].
      intros l' Hl Hl'. cbn [wt]. now rewrite Hl, Hn, Hl'.
    - (* tuple *)
      destruct prior; try discriminate. cbn [wt] in Hpr. cbn [gdes_ty as_seq]. cbn [wf] in Hw.
      cbn [tall tallP] in *. apply andb_true_iff in Hf as [_ Hf]. destruct Hcp as [_ Hcp].
      apply tallP_list in Hcp.
      assert (HF : Forall (fun m => safe_f m (gdes_ty sgn G c data rec m)) ts).
      { rewrite forallb_forall in *. rewrite Forall_forall in *. intros m Hin. apply H; auto. }
      pose proof (des_many_safe G data ub st (gdes_ty sgn G c data rec) ts HF l pos Hp Hpr) as S.
      destruct (des_many _ _ _ _) as [[r l'] p]. exact S.
    - (* vec *)
      destruct prior; try discriminate. cbn [wt] in Hpr. cbn [gdes_ty as_seq].
      cbn [wf] in Hw. apply andb_true_iff in Hw as [Hs Hw]. apply (wfsz_sz_of c) in Hs; [|exact Hds].
      cbn [tall tallP] in *. apply andb_true_iff in Hf as [_ Hf]. destruct Hcp as [_ Hcp].
      assert (Hb : as_bytes c t && cg = true -> bs t = true)
        by (intro Hb; apply andb_true_iff in Hb as [Hb _]; eapply as_bytes_bs; eauto).
      assert (E : safe_out (TVec s cg t) pos
        match gdes_size sgn c data (sz_of c s) pos with
            | (ROk, n, pos') =>
                match vec_resize G c t n l with
                | (ROk, l) => des_elems c data (as_bytes c t && cg) (gdes_ty sgn G c data rec t) t l pos'
                | (r, l) => (r, VSeq l, pos')
                end
            | (r, _, pos') => (r, VSeq l, pos')
            end).
      { pose proof (gdes_size_safe sgn c (sz_of c s) Hs data pos Hsm Hp) as S. cbn beta in S.
        destruct (gdes_size _ _ _ _ _) as [[r n] p]. destruct r; try tauto; cbn [safe_out].
        - destruct S as [S1 S2]. destruct (vec_resize G c t n l) as [r l'] eqn:Ev.
          pose proof (InSafe.vec_resize_wt G c ub st HG t n l r l' Hw Hpr Ev) as (V1 & V2 & V3).
          destruct r; try (cbn [safe_out wt]; split; [lia|]; auto).
          apply des_elems_safe_out; auto.
        - subst p. split; [lia|]. auto. }
      destruct (sz_of c s); [|exact E..].
      apply des_elems_safe_out; auto.
    - (* assoc *)
      cbn [gdes_ty].
      cbn [wf] in Hw. apply andb_true_iff in Hw as [Hs Hw]. apply (wfsz_sz_of c) in Hs; [|exact Hds].
      cbn [tall tallP] in *. apply andb_true_iff in Hf as [_ Hf]. destruct Hcp as [Hk Hcp].
      assert (L : forall n p, (pos <= p <= length data)%nat ->
        safe_out (TAssoc s k t) pos
          (seq_res (des_assoc (gdes_ty sgn G c data rec t) (assoc_insert k) (dflt G t) n [] p))).
      { intros n p Hpp.
        pose proof (des_assoc_safe G data ub st (gdes_ty sgn G c data rec t) s k t (dflt G t) Hk
           (IHt Hw Hf Hcp) (wt_dflt G t HG Hw) n [] p ltac:(lia) eq_refl) as S.
        unfold seq_res. destruct (des_assoc _ _ _ _ _ _) as [[r l] p']. cbn [safe_out].
        destruct S as (S1 & S2 & S3). split; [lia|]. auto. }
      pose proof (gdes_size_safe sgn c (sz_of c s) Hs data pos Hsm Hp) as S. cbn beta in S.
      destruct (sz_of c s) eqn:Es; [apply L; lia|..];
      (destruct (gdes_size _ _ _ _ _) as [[r n] p]; destruct r; try tauto;
        [apply L; lia|cbn [safe_out]; subst p; auto]).
    - (* opt *)
      cbn [gdes_ty wf] in *. cbn [tall tallP] in *. apply andb_true_iff in Hf as [_ Hf].
      destruct Hcp as [_ Hcp]. unfold des_flag.
      pose proof (des_scalar_safe c 1 0 data pos Hsm Hp) as S. cbn beta in S.
      destruct (des_scalar _ _ _ _ _) as [[r n'] p]. destruct r; try tauto; cbn [safe_out].
      + destruct n' as [|q]; cbn [safe_out]; [split; [lia|]; auto|].
        eapply safe_out_weaken; [apply S|].
        eapply des_inplace_safe with (t' := t); auto; [now apply wt_dflt| |lia].
        intros x Hx. destruct prior; try discriminate. injection Hx as <-. exact Hpr.
      + subst p. auto.
    - (* optptr *)
      cbn [gdes_ty wf] in *. cbn [tall tallP] in *. apply andb_true_iff in Hf as [_ Hf].
      destruct Hcp as [_ Hcp]. unfold des_flag.
      pose proof (des_scalar_safe c 1 0 data pos Hsm Hp) as S. cbn beta in S.
      destruct (des_scalar _ _ _ _ _) as [[r n'] p]. destruct r; try tauto; cbn [safe_out].
      + destruct n' as [|q]; cbn [safe_out]; [split; [lia|]; auto|].
        eapply safe_out_weaken; [apply S|].
        eapply des_ptr_safe with (t' := t); auto; [now apply wt_dflt|lia].
      + subst p. auto.
    - (* ptr *)
      cbn [gdes_ty wf] in *. cbn [tall tallP] in *. apply andb_true_iff in Hf as [_ Hf].
      destruct Hcp as [_ Hcp].
      eapply des_ptr_safe with (t' := t); auto. now apply wt_dflt.
    - (* variant *)
      rewrite gvariant_eq.
      cbn [tall tallP] in *. apply andb_true_iff in Hf as [_ Hf].
      destruct Hcp as [_ Hcp]. apply tallP_list in Hcp.
      cbn [wf] in Hw. rewrite !andb_true_iff in Hw. destruct Hw as [[[[Hl Hm] Hd] Hi] Hw].
      pose proof (des_id_safe c ik data pos Hsm Hp) as S. cbn beta in S.
      destruct (des_id _ _ _ _) as [[r n'] p]. destruct r; try tauto; cbn [safe_out].
      + destruct (find_id meta n') as [i|] eqn:Ef; [|cbn [safe_out]; split; [lia|]; auto].
        apply find_id_some in Ef as [dc Ef].
        assert (Hi' : (i < length alts)%nat).
        { apply Nat.eqb_eq in Hm. rewrite <- Hm. apply nth_error_Some. congruence. }
        destruct (nth_error alts i) as [t'|] eqn:Ea; [|now apply nth_error_None in Ea; lia].
        eapply safe_out_weaken; [apply S|].
        pose proof (nth_error_In _ _ Ea) as Hin.
        rewrite forallb_forall in Hw, Hf. rewrite Forall_forall in H, Hcp.
        eapply des_inplace_safe with (t' := t'); auto; [now apply wt_dflt; auto|..|lia].
        * intros x Hx. destruct prior; try discriminate. cbn [active] in Hx.
          destruct (Nat.eqb_spec i i0) as [->|]; [|discriminate]. injection Hx as <-.
          cbn [wt] in Hpr. now rewrite Ea in Hpr.
        * intros x Hx. cbn [wt]. now rewrite Ea.
      + subst p. auto.
    - (* bitset *)
      cbn [gdes_ty]. unfold des_bitset. rewrite remaining_small by assumption.
      destruct (N.ltb_spec (N.of_nat (length data - pos)) (N.of_nat (bitset_bytes n)));
        [cbn [safe_out]; auto|].
      rewrite load_some by lia. cbn [safe_out wt]. split; [lia|]. split; [|auto].
      assert (L : forall e i m, length (get_bits e i m) = m)
        by (intros e i m; revert i; induction m; intro i; cbn; auto).
      now rewrite L, Nat.eqb_refl.
    - (* view *)
      destruct k as [s|n|]; cbn [gdes_ty].
      + cbn [wf] in Hw. apply (wfsz_sz_of c) in Hw; [|exact Hds].
        pose proof (gdes_size_safe sgn c (sz_of c s) Hw data pos Hsm Hp) as S. cbn beta in S.
        destruct (gdes_size _ _ _ _ _) as [[r n] p]. destruct r; try tauto; cbn [safe_out];
          [|subst p; auto].
        assert (E : safe_out (TView (VwSized s)) pos
          (if remaining data p <? n then (RErr result_out_of_range, prior, p)
                else match load data p (N.to_nat n) with
                     | Some e => (ROk, VBytes e, (p + N.to_nat n)%nat)
                     | None => (RUB, prior, p)
                     end)).
        { rewrite remaining_small by (assumption || lia).
          destruct (N.ltb_spec (N.of_nat (length data - p)) n); cbn [safe_out]; [split; [lia|]; auto|].
          rewrite load_some by lia. cbn [safe_out wt]. split; [lia|]; auto. }
        destruct (sz_of c s); [|exact E..].
        rewrite load_some by lia. cbn [safe_out wt]. split; [lia|]; auto.
      + rewrite remaining_small by assumption.
        destruct (N.ltb_spec (N.of_nat (length data - pos)) (N.of_nat n)); [cbn [safe_out]; auto|].
        rewrite load_some by lia. cbn [safe_out wt]. rewrite window_length by lia.
        rewrite Nat.eqb_refl. split; [lia|]; auto.
      + rewrite load_some by lia. cbn [safe_out wt]. split; [lia|]; auto.
    - (* span *)
      destruct prior; try discriminate. cbn [wt] in Hpr. cbn [gdes_ty as_seq].
      cbn [wf] in Hw. apply andb_true_iff in Hw as [Hs Hw]. apply (wfsz_sz_of c) in Hs; [|exact Hds].
      cbn [tall tallP] in *. apply andb_true_iff in Hf as [_ Hf]. destruct Hcp as [_ Hcp].
      assert (E : safe_out (TSpan s t) pos
        match gdes_size sgn c data (sz_of c s) pos with
            | (ROk, n, pos') =>
                if N.of_nat (length l) <? n
                then (RErr result_out_of_range, VSeq l, pos')
                else des_elems c data (as_bytes c t) (gdes_ty sgn G c data rec t) t
                       (firstn (N.to_nat n) l) pos'
            | (r, _, pos') => (r, VSeq l, pos')
            end).
      { pose proof (gdes_size_safe sgn c (sz_of c s) Hs data pos Hsm Hp) as S. cbn beta in S.
        destruct (gdes_size _ _ _ _ _) as [[r n] p]. destruct r; try tauto; cbn [safe_out].
        - destruct S as [S1 S2]. destruct (_ <? n); [cbn [safe_out wt]; split; [lia|]; auto|].
          apply des_elems_safe_out; auto; [apply as_bytes_bs|].
          rewrite forallb_forall in *. intros x Hin. apply Hpr.
          rewrite <- (firstn_skipn (N.to_nat n) l). apply in_or_app. now left.
        - subst p. split; [lia|]. auto. }
      destruct (sz_of c s); [|exact E..].
      apply des_elems_safe_out; auto. apply as_bytes_bs.
  Qed.
End Safe.

Section SafeRec.
  Variables (sgn : sizety -> bool) (G : tenv) (c : cfg) (data : list byte) (ub st : bool).
  Hypothesis (HG : wf_env G) (Hds : wfsz (Some (dsize c)) = true) (Hsm : small data).
  Hypothesis (Hcmp : tallP_env (cmp_ok G) G).
  Hypothesis (Hfl : tall_env (flagged ub st) G).

  Lemma gdes_rec_safe fuel k : st = true -> safe_f G data ub st (TRec k) (gdes_rec sgn G c data fuel k).
  Proof.
    intro Hst. revert k. induction fuel as [|f IH]; intros k prior pos Hp Hpr; cbn [gdes_rec].
    - cbn [safe_out]. split; [lia|]. split; auto. split; [discriminate|auto].
    - destruct prior; try discriminate. cbn [wt as_seq] in *.
      assert (HF : Forall (fun m => safe_f G data ub st m (gdes_ty sgn G c data (gdes_rec sgn G c data f) m)) (t_mems G k)).
      { rewrite Forall_forall. intros m Hin. apply gdes_ty_safe; auto.
        - destruct (HG k) as [Hw _]. rewrite forallb_forall in Hw. auto.
        - specialize (Hfl k). rewrite forallb_forall in Hfl. auto.
        - specialize (Hcmp k). rewrite Forall_forall in Hcmp. auto. }
      pose proof (des_many_safe G data ub st _ _ HF l pos Hp Hpr) as S.
      unfold seq_res. destruct (des_many _ _ _ _) as [[r l'] p]. exact S.
  Qed.

  Lemma gdes_safe fuel t :
    wf G t = true -> tall (flagged ub st) t = true -> tallP (cmp_ok G) t ->
    safe_f G data ub st t (gdes sgn G c data fuel t).
  Proof. intros. unfold gdes. apply gdes_ty_safe; auto. intros k Hst. now apply gdes_rec_safe. Qed.

  Lemma gin_call_safe fuel ts :
    forallb (wf G) ts = true -> forallb (tall (flagged ub st)) ts = true -> Forall (tallP (cmp_ok G)) ts ->
    forall priors pos, (pos <= length data)%nat ->
      forall2b (fun x m => wt G x m) priors ts = true ->
      match gin_call sgn G c data fuel ts priors pos with (r, l, p) =>
        (pos <= p <= length data)%nat /\ forall2b (fun x m => wt G x m) l ts = true
        /\ allowed ub st r end.
  Proof.
    intros H1 H2 H3. apply des_many_safe. rewrite forallb_forall in *. rewrite Forall_forall in *.
    intros m Hin. apply gdes_safe; auto.
  Qed.
End SafeRec.

(** ** Round trip *)

(** The count is one that the size type can say, without the sign. *)
Definition gcount_ok (sgn : sizety -> bool) (c : cfg) (s : option sizety) (n : nat) : bool :=
  match sz_of c s with
  | SzNone => true
  | SzFix w | SzVar w => N.of_nat n <? (if sgn (sz_of c s) then pow256 w / 2 else pow256 w)
  end.

Fixpoint greadable (sgn : sizety -> bool) (G : tenv) (c : cfg) (v : val) (t : ty) {struct v} : bool :=
  match t, v with
  | TStruct _ ms, VSeq l => forall2b (fun x m => greadable sgn G c x m) l ms
  | TRec k, VSeq l => forall2b (fun x m => greadable sgn G c x m) l (t_mems G k)
  | TTuple ms, VSeq l => forall2b (fun x m => greadable sgn G c x m) l ms
  | TArray _ t', VSeq l => forallb (fun x => greadable sgn G c x t') l
  | TVec s _ t', VSeq l =>
      gcount_ok sgn c s (length l) && negb (over_limit c t' (N.of_nat (length l)))
      && can_alloc c (N.of_nat (length l) * csizeof c t')
      && forallb (fun x => greadable sgn G c x t') l
  | TAssoc s _ t', VSeq l => gcount_ok sgn c s (length l) && forallb (fun x => greadable sgn G c x t') l
  | TSpan s t', VSeq l => gcount_ok sgn c s (length l) && forallb (fun x => greadable sgn G c x t') l
  | TOpt _ t', VSome x => greadable sgn G c x t'
  | TOptPtr t', VSome x => greadable sgn G c x t'
  | TPtr t', VSome x => greadable sgn G c x t'
  | TVariant _ _ alts, VAlt i x =>
      match nth_error alts i with Some t' => greadable sgn G c x t' | None => false end
  | TView (VwSized s), VBytes l => gcount_ok sgn c s (length l)
  | _, _ => true
  end.

Section Round.
  Variables (sgn : sizety -> bool) (G : tenv) (c : cfg) (data : list byte).
  Hypothesis (HG : wf_env G) (Hds : wfsz (Some (dsize c)) = true) (Hsm : small data).
  Hypothesis (Hpl : tall_env elem_ok G) (Hrt : tall_env (rt_ok c) G).
  Notation o := (fmt_of c).
  Notation enc := (enc G o).
  Notation has := (has_at data).

  Local Notation des_scalar_has := (InRound.des_scalar_has c data Hsm).
  Local Notation des_varint_has := (InRound.des_varint_has c data).
  Local Notation des_id_has := (InRound.des_id_has c data Hsm).
  Local Notation des_bytes_has := (InRound.des_bytes_has G c data Hsm).
  Local Notation des_many_reads := (InRound.des_many_reads G c data).
  Local Notation des_elems_reads := (InRound.des_elems_reads G c data Hsm).
  Local Notation des_assoc_reads := (InRound.des_assoc_reads G c data).

  Lemma gcount_count s n : gcount_ok sgn c s n = true -> count_ok c s n = true.
  Proof.
    unfold gcount_ok, count_ok. destruct (sz_of c s) as [|w|w]; auto; intro H; apply N.ltb_lt in H; apply N.ltb_lt;
      pose proof (N.div_le_upper_bound (pow256 w) 2 (pow256 w) ltac:(lia) ltac:(lia)); destruct (sgn _); lia.
  Qed.

  Lemma gdes_size_has s n pos :
    wfsz s = true -> sz_of c s <> SzNone -> gcount_ok sgn c s n = true ->
    has pos (wire_size o s (N.of_nat n)) ->
    gdes_size sgn c data (sz_of c s) pos = (ROk, N.of_nat n, (pos + length (wire_size o s (N.of_nat n)))%nat).
  Proof.
    intros Hs Hne Hc H. unfold gdes_size.
    rewrite (des_size_has c data Hds Hsm s n pos Hs Hne (gcount_count _ _ Hc) H).
    unfold gcount_ok in Hc. unfold extend_size. destruct (sz_of c s) as [|w|w]; [reflexivity|..];
      (destruct (sgn _); [|reflexivity]; unfold extend; now rewrite Hc).
  Qed.

  Theorem gdes_round v : forall t fuel prior pos,
    wf G t = true -> plain t = true -> tall (rt_ok c) t = true ->
    wt G v t = true -> writable G o v t = true -> greadable sgn G c v t = true ->
    (height v <= fuel)%nat -> wt G prior t = true ->
    has pos (encode G o v t) ->
    gdes sgn G c data fuel t prior pos = (ROk, v, (pos + length (encode G o v t))%nat).
  Proof.
    unfold writable, encode, gdes.
    induction v as [n|l IH| |v IH|i v IH| |l|l] using val_ind';
      intros t fuel prior pos Hw Hp Ht Hv Hs Hr Hh Hpr H;
      destruct t; cbn [wt] in Hv; try discriminate; try (destruct k as [s|nv|]; discriminate).
    - (* scalar *)
      cbn [Wire.enc pdone fst] in *. cbn [gdes_ty]. apply N.ltb_lt in Hv.
      rewrite (des_scalar_has w _ n) by assumption. cbn [nres]. now rewrite wscalar_length.
    - (* bool *)
      cbn [Wire.enc pdone fst] in *. cbn [gdes_ty]. apply N.ltb_lt in Hv.
      rewrite (des_scalar_has 1 _ n) by (try assumption; rewrite pow256_S, pow256_0; lia).
      rewrite wscalar_length. apply N.ltb_lt in Hv. now rewrite Hv.
    - (* varint *)
      cbn [Wire.enc pdone fst] in *. cbn [gdes_ty wf] in *. apply N.ltb_lt in Hv.
      cbn [tall] in Ht. unfold rt_ok in Ht. cbn [own_extent delimited andb] in Ht.
      rewrite (des_varint_has w sg zz _ n); auto. intros ->. destruct sg; auto.
    - (* empty *)
      destruct l; [|discriminate]. destruct prior as [|[]| | | | | |]; try discriminate.
      cbn [gdes_ty Wire.enc pnil fst length]. f_equal. lia.
    - (* struct *)
      cbn [gdes_ty]. destruct (negb (s_expl si) && is_empty (TStruct si ms)) eqn:Ee.
      { apply andb_true_iff in Ee as [_ Ee]. destruct ms; [|discriminate].
        destruct l; [|discriminate]. destruct prior as [|[]| | | | | |]; try discriminate.
        cbn [Wire.enc enc_many pnil fst length]. f_equal. lia. }
      destruct (as_bytes c (TStruct si ms)) eqn:Eb.
      + pose proof (as_bytes_bs _ _ Eb) as Hb.
        assert (Hwt : wt G (VSeq l) (TStruct si ms) = true) by exact Hv.
        pose proof (objrep_enc G c (VSeq l) (TStruct si ms) Hwt Hw Hp (bs_not_empty_struct _ _ Hb) Eb) as E.
        rewrite E in *. cbn [fst] in *.
        pose proof (des_bytes_has (TStruct si ms) [VSeq l] [prior] pos Hw Hb
          ltac:(cbn [forallb]; now rewrite Hwt) eq_refl) as D.
        cbn [flat_map length] in D. rewrite app_nil_r in D. now rewrite D.
      + destruct prior as [|pl| | | | | |]; try discriminate. cbn [as_seq wt] in *.
        cbn [wf] in Hw. rewrite !andb_true_iff in Hw. destruct Hw as [[_ Hw] _].
        unfold plain in Hp. cbn [tall] in Hp, Ht. apply andb_true_iff in Hp as [_ Hp].
        apply andb_true_iff in Ht as [_ Ht]. cbn [greadable Wire.enc] in *.
        rewrite (des_many_reads _ l ms); auto; [|now apply forall2b_length in Hv].
        intros x m Hin Hsx prior pos' Hpx Hx.
        pose proof (in_combine_l _ _ _ _ Hin) as Hin1.
        rewrite Forall_forall in IH. apply (IH x Hin1 m fuel prior pos');
          try (eapply in_combine_forallb; eassumption); auto.
        * eapply forall2b_in in Hv; eauto.
        * eapply forall2b_in in Hr; eauto.
        * pose proof (height_in _ _ Hin1). lia.
    - (* named class *)
      destruct prior as [|pl| | | | | |]; try discriminate. cbn [as_seq wt gdes_ty] in *.
      cbn [greadable Wire.enc] in *. destruct fuel as [|f]; [cbn in Hh; lia|]. cbn [gdes_rec as_seq].
      destruct (HG k) as [Hwk _]. specialize (Hpl k) as Hpk. specialize (Hrt k) as Htk.
      rewrite (des_many_reads _ l (t_mems G k)); auto; [|now apply forall2b_length in Hv].
      intros x m Hin Hsx prior pos' Hpx Hx.
      pose proof (in_combine_l _ _ _ _ Hin) as Hin1.
      rewrite Forall_forall in IH. apply (IH x Hin1 m f prior pos');
        try (eapply in_combine_forallb; eassumption); auto.
      + eapply forall2b_in in Hv; eauto.
      + eapply forall2b_in in Hr; eauto.
      + pose proof (height_in _ _ Hin1). lia.
    - (* array *)
      destruct prior as [|pl| | | | | |]; try discriminate. cbn [as_seq wt gdes_ty] in *.
      apply andb_true_iff in Hv as [N1 Hv]. apply andb_true_iff in Hpr as [N2 Hpr].
      cbn [wf] in Hw. apply andb_true_iff in Hw as [_ Hw].
      unfold plain in Hp. cbn [tall elem_ok] in Hp, Ht. apply andb_true_iff in Hp as [He Hp].
      apply andb_true_iff in Ht as [_ Ht]. cbn [greadable Wire.enc] in *.
      apply negb_true_iff in He.
      rewrite (des_elems_reads (as_bytes c t) _ t l pl pos); auto; [|lia].
      rewrite forallb_forall in Hv, Hr. rewrite Forall_forall in IH.
      intros x Hin Hsx prior pos' Hpx Hx. apply (IH x Hin t fuel prior pos'); auto.
      pose proof (height_in _ _ Hin). lia.
    - (* tuple *)
      destruct prior as [|pl| | | | | |]; try discriminate. cbn [as_seq wt gdes_ty wf] in *.
      unfold plain in Hp. cbn [tall] in Hp, Ht. apply andb_true_iff in Hp as [_ Hp].
      apply andb_true_iff in Ht as [_ Ht]. cbn [greadable Wire.enc] in *.
      rewrite (des_many_reads _ l ts); auto; [|now apply forall2b_length in Hv].
      intros x m Hin Hsx prior pos' Hpx Hx.
      pose proof (in_combine_l _ _ _ _ Hin) as Hin1.
      rewrite Forall_forall in IH. apply (IH x Hin1 m fuel prior pos');
        try (eapply in_combine_forallb; eassumption); auto.
      * eapply forall2b_in in Hv; eauto.
      * eapply forall2b_in in Hr; eauto.
      * pose proof (height_in _ _ Hin1). lia.
    - (* vec *)
      destruct prior as [|pl| | | | | |]; try discriminate. cbn [as_seq wt gdes_ty] in *.
      cbn [wf] in Hw. apply andb_true_iff in Hw as [Hz Hw].
      unfold plain in Hp. cbn [tall elem_ok] in Hp, Ht. apply andb_true_iff in Hp as [He Hp].
      apply andb_true_iff in Ht as [Hx Ht]. cbn [greadable Wire.enc] in *.
      apply negb_true_iff in He. unfold rt_ok in Hx. cbn [own_extent] in Hx.
      rewrite !andb_true_iff in Hr. destruct Hr as [[[R1 R2] R3] R4]. apply negb_true_iff in R2.
      apply pseq_ok in Hs as (S1 & S2 & S3). rewrite S3 in *. cbn [pdone fst] in *.
      apply has_at_app in H as [H1 H2].
      assert (Hne : sz_of c sz <> SzNone) by (intro E; rewrite E in Hx; discriminate).
      pose proof (gdes_size_has sz (length l) pos Hz Hne R1 H1) as D.
      assert (V : vec_resize G c t (N.of_nat (length l)) pl = (ROk, vresize (dflt G t) (length l) pl)).
      { unfold vec_resize. rewrite R2, R3, orb_true_r, Nat2N.id. reflexivity. }
      assert (E : des_elems c data (as_bytes c t && contig) (gdes_ty sgn G c data (gdes_rec sgn G c data fuel) t) t
         (vresize (dflt G t) (length l) pl) (pos + length (wire_size o sz (N.of_nat (length l))))
         = (ROk, VSeq l, (pos + length (wire_size o sz (N.of_nat (length l))) + length (fst (enc_all enc l t)))%nat)).
      { apply des_elems_reads; auto.
        - intro B. now apply andb_true_iff in B.
        - rewrite forallb_forall in Hv, R4. rewrite Forall_forall in IH.
          intros x Hin Hsx prior pos' Hpx Hx'. apply (IH x Hin t fuel prior pos'); auto.
          pose proof (height_in _ _ Hin). lia.
        - apply vresize_length.
        - rewrite forallb_forall in *. apply Forall_forall, vresize_forall; [now apply wt_dflt|].
          now rewrite Forall_forall. }
      destruct (sz_of c sz); [congruence|..]; rewrite D, V, E, app_length; f_equal; lia.
    - (* assoc *)
      cbn [gdes_ty]. apply andb_true_iff in Hv as [Hv Hb].
      cbn [wf] in Hw. apply andb_true_iff in Hw as [Hz Hw].
      unfold plain in Hp. cbn [tall elem_ok andb] in Hp, Ht.
      apply andb_true_iff in Ht as [Hx Ht]. cbn [greadable Wire.enc] in *.
      unfold rt_ok in Hx. cbn [own_extent] in Hx.
      apply andb_true_iff in Hr as [R1 R4].
      apply pseq_ok in Hs as (S1 & S2 & S3). rewrite S3 in *. cbn [pdone fst] in *.
      apply has_at_app in H as [H1 H2].
      assert (Hne : sz_of c sz <> SzNone) by (intro E; rewrite E in Hx; discriminate).
      pose proof (gdes_size_has sz (length l) pos Hz Hne R1 H1) as D.
      pose proof (des_assoc_reads (gdes_ty sgn G c data (gdes_rec sgn G c data fuel) t) k l t (dflt G t)) as E.
      assert (F : des_assoc (gdes_ty sgn G c data (gdes_rec sgn G c data fuel) t) (assoc_insert k) (dflt G t)
          (length l) [] (pos + length (wire_size o sz (N.of_nat (length l))))
          = (ROk, l, (pos + length (wire_size o sz (N.of_nat (length l))) + length (fst (enc_all enc l t)))%nat)).
      { apply E; auto; [|now apply wt_dflt].
        rewrite forallb_forall in Hv, R4. rewrite Forall_forall in IH.
        intros x Hin Hsx prior' pos' Hpx Hx'. apply (IH x Hin t fuel prior' pos'); auto.
        pose proof (height_in _ _ Hin). lia. }
      destruct (sz_of c sz); [congruence|..]; rewrite D, Nat2N.id, F, app_length; cbn [seq_res]; f_equal; lia.
    - (* no optional *)
      cbn [gdes_ty Wire.enc pdone fst length] in *. unfold des_flag.
      rewrite (des_scalar_has 1 0 0); [reflexivity|rewrite pow256_S, pow256_0; lia|].
      rewrite wscalar_1. exact H.
    - cbn [gdes_ty Wire.enc pdone fst length] in *. unfold des_flag.
      rewrite (des_scalar_has 1 0 0); [reflexivity|rewrite pow256_S, pow256_0; lia|].
      rewrite wscalar_1. exact H.
    - (* optional *)
      cbn [gdes_ty Wire.enc wf greadable] in *. unfold plain in Hp. cbn [tall elem_ok andb] in Hp, Ht.
      apply andb_true_iff in Ht as [_ Ht]. cbn [height] in Hh.
      apply pseq_ok in Hs as (S1 & S2 & S3). rewrite S3 in *. cbn [pdone fst] in *.
      apply has_at_app in H as [H1 H2]. unfold des_flag.
      rewrite (des_scalar_has 1 0 1); [|rewrite pow256_S, pow256_0; lia|rewrite wscalar_1; exact H1].
      cbn [length] in H2. unfold des_inplace. destruct dc.
      + erewrite IH; eauto; [|lia|].
        * rewrite app_length. cbn [length]. f_equal. lia.
        * destruct prior; cbn [opt_cur]; try (apply wt_dflt; assumption). exact Hpr.
      + erewrite IH; eauto; [|lia|now apply wt_dflt].
        rewrite app_length. cbn [length]. f_equal. lia.
    - (* optional_ptr *)
      cbn [gdes_ty Wire.enc wf greadable] in *. unfold plain in Hp. cbn [tall elem_ok andb] in Hp, Ht.
      apply andb_true_iff in Ht as [_ Ht]. cbn [height] in Hh.
      apply pseq_ok in Hs as (S1 & S2 & S3). rewrite S3 in *. cbn [pdone fst] in *.
      apply has_at_app in H as [H1 H2]. unfold des_flag.
      rewrite (des_scalar_has 1 0 1); [|rewrite pow256_S, pow256_0; lia|rewrite wscalar_1; exact H1].
      cbn [length] in H2. unfold des_ptr.
      erewrite IH; eauto; [|lia|now apply wt_dflt].
      rewrite app_length. cbn [length]. f_equal. lia.
    - (* owning pointer *)
      cbn [gdes_ty Wire.enc wf greadable] in *. unfold plain in Hp. cbn [tall elem_ok andb] in Hp, Ht.
      apply andb_true_iff in Ht as [_ Ht]. cbn [height] in Hh. unfold des_ptr.
      erewrite IH; eauto; [lia|now apply wt_dflt].
    - (* variant *)
      rewrite gvariant_eq.
      cbn [wf] in Hw. rewrite !andb_true_iff in Hw. destruct Hw as [[[[Hl Hm] Hd] Hi] Hw].
      unfold plain in Hp. cbn [tall elem_ok andb] in Hp, Ht. apply andb_true_iff in Ht as [_ Ht].
      cbn [Wire.enc greadable height] in *.
      destruct (nth_error alts i) as [t'|] eqn:Ea; [|discriminate].
      destruct (nth_error meta i) as [[id dc]|] eqn:Em; [|discriminate].
      apply pseq_ok in Hs as (S1 & S2 & S3). rewrite S3 in *. cbn [pdone fst] in *.
      apply has_at_app in H as [H1 H2].
      pose proof (nth_error_In _ _ Ea) as Hin.
      rewrite forallb_forall in Hw, Hp, Ht, Hi.
      assert (Hid : id < pow256 (idwidth ik)).
      { apply N.ltb_lt, Hi. apply nth_error_In in Em. apply in_map_iff. now exists (id, dc). }
      rewrite (des_id_has ik id pos Hid H1). rewrite (find_id_nth meta id dc i Hd Em), Ea, Em.
      specialize (Hw _ Hin). unfold des_inplace. destruct dc.
      + erewrite (IH t'); eauto; [|lia|].
        * rewrite app_length. f_equal. lia.
        * destruct prior; cbn [active]; try (apply wt_dflt; assumption).
          destruct (Nat.eqb_spec i i0) as [->|]; [|apply wt_dflt; assumption].
          cbn [wt] in Hpr. now rewrite Ea in Hpr.
      + erewrite (IH t'); eauto; [|lia|now apply wt_dflt].
        rewrite app_length. f_equal. lia.
    - (* bitset *)
      cbn [gdes_ty Wire.enc pdone fst] in *. apply Nat.eqb_eq in Hv. subst n.
      unfold des_bitset. destruct H as [H1 H2]. rewrite le_bytes_length in *.
      fold (bitset_bytes (length l)) in *.
      rewrite remaining_small by (assumption || lia).
      destruct (N.ltb_spec (N.of_nat (length data - pos)) (N.of_nat (bitset_bytes (length l)))); [lia|].
      rewrite load_some by lia. rewrite H2, get_bits_le_bytes; [reflexivity|].
      unfold bitset_bytes. lia.
    - (* views *)
      destruct k as [s|n|].
      + cbn [gdes_ty Wire.enc pdone fst greadable wf] in *.
        cbn [tall] in Ht. unfold rt_ok in Ht. cbn [own_extent delimited andb] in Ht.
        assert (Hne : sz_of c s <> SzNone) by (intro E; rewrite E in Ht; discriminate).
        apply has_at_app in H as [H1 H2].
        rewrite (gdes_size_has s (length l) pos Hw Hne Hr H1).
        set (q := (pos + length (wire_size o s (N.of_nat (length l))))%nat) in *.
        destruct H2 as [H2 H3].
        assert (E : (if remaining data q <? N.of_nat (length l) then (RErr result_out_of_range, prior, q)
                     else match load data q (N.to_nat (N.of_nat (length l))) with
                     | Some e => (ROk, VBytes e, (q + N.to_nat (N.of_nat (length l)))%nat)
                     | None => (RUB, prior, q)
                     end) = (ROk, VBytes l, (q + length l)%nat)).
        { rewrite remaining_small by (assumption || lia).
          destruct (N.ltb_spec (N.of_nat (length data - q)) (N.of_nat (length l))); [lia|].
          rewrite Nat2N.id, load_some by lia. now rewrite H3. }
        rewrite app_length. replace (pos + (length (wire_size o s (N.of_nat (length l))) + length l))%nat
          with (q + length l)%nat by (unfold q; lia).
        destruct (sz_of c s); [congruence|exact E..].
      + cbn [gdes_ty Wire.enc pdone fst] in *. apply Nat.eqb_eq in Hv. subst n.
        destruct H as [H2 H3].
        rewrite remaining_small by (assumption || lia).
        destruct (N.ltb_spec (N.of_nat (length data - pos)) (N.of_nat (length l))); [lia|].
        rewrite load_some by lia. now rewrite H3.
      + cbn [tall] in Ht. unfold rt_ok in Ht. cbn [own_extent delimited andb] in Ht. discriminate.
  Qed.
End Round.
