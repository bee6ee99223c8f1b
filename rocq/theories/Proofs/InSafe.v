(** Reading arbitrary bytes: bounds, validity of the target, possible outcomes. *)

From Coq Require Import List NArith ZArith Lia Bool Arith.
From Coq Require Import ZifyBool ZifyNat ZifyN.
From Verif Require Import Base.Bytes Model.Types Model.Machine Model.Varint Model.Out Model.In
  Spec.Leb128 Spec.Wire Proofs.VarintP Proofs.OutP Proofs.InBase.
Import ListNotations.
Local Open Scope N_scope.

Ltac Zify.zify_post_hook ::= Z.div_mod_to_equations.

Definition not_rec (t : ty) : bool := match t with TRec _ => false | _ => true end.

(** [ub]: bool members are allowed; [st]: named (recursive) classes are allowed. *)
Definition flagged (ub st : bool) (t : ty) : bool := (ub || not_bool t) && (st || not_rec t).

Definition allowed (ub st : bool) (r : res) : Prop :=
  (r = RUB -> ub = true) /\ (r = RStack -> st = true).

Lemma allowed_ok ub st : allowed ub st ROk. Proof. split; discriminate. Qed.
Lemma allowed_err ub st e : allowed ub st (RErr e). Proof. split; discriminate. Qed.
Lemma allowed_throw ub st : allowed ub st RThrow. Proof. split; discriminate. Qed.
Global Hint Resolve allowed_ok allowed_err allowed_throw : core.

Lemma tall_sub p q t : (forall t, p t = true -> q t = true) -> tall p t = true -> tall q t = true.
Proof.
  intro Hpq. induction t using ty_ind'; cbn [tall]; rewrite !andb_true_iff; intros [H1 H2];
    (split; [now apply Hpq|]); auto;
    rewrite forallb_forall in *; rewrite Forall_forall in *; auto.
Qed.

Lemma wfsz_sz_of c s : wfsz (Some (dsize c)) = true -> wfsz s = true -> wfsz (Some (sz_of c s)) = true.
Proof. destruct s; cbn [sz_of]; auto. Qed.


Section SafeLoops.
  Variables (G : tenv) (data : list byte) (ub st : bool).

  Definition safe_out (t : ty) (pos : nat) (x : dres) : Prop :=
    match x with (r, v, p) =>
      (pos <= p <= length data)%nat /\ wt G v t = true /\ allowed ub st r
    end.

  Definition safe_f (t : ty) (f : val -> nat -> dres) : Prop :=
    forall prior pos, (pos <= length data)%nat -> wt G prior t = true -> safe_out t pos (f prior pos).

  Lemma des_many_safe f ms :
    Forall (fun m => safe_f m (f m)) ms ->
    forall priors pos, (pos <= length data)%nat ->
      forall2b (fun x m => wt G x m) priors ms = true ->
      match des_many f ms priors pos with (r, l, p) =>
        (pos <= p <= length data)%nat /\ forall2b (fun x m => wt G x m) l ms = true
        /\ allowed ub st r end.
  Proof.
    induction 1 as [|m ms Hm _ IH]; intros priors pos Hp Hw; cbn [des_many].
    { split; [lia|]. split; auto. }
    destruct priors as [|x priors]; [discriminate|]. cbn [forall2b tl] in *.
    apply andb_true_iff in Hw as [Hx Hw].
    pose proof (Hm x pos Hp Hx) as S. destruct (f m x pos) as [[r v] p]. cbn [safe_out] in S.
    destruct S as (S1 & S2 & S3).
    destruct r; try (split; [lia|]; split; [|exact S3]; cbn [forall2b]; now rewrite S2, Hw).
    specialize (IH priors p ltac:(lia) Hw).
    destruct (des_many f ms priors p) as [[r' vs] p']. destruct IH as (I1 & I2 & I3).
    split; [lia|]. split; [|exact I3]. cbn [forall2b]. now rewrite S2, I2.
  Qed.

  Lemma des_all_safe f t :
    safe_f t f ->
    forall l pos, (pos <= length data)%nat -> forallb (fun x => wt G x t) l = true ->
      match des_all f l pos with (r, l', p) =>
        (pos <= p <= length data)%nat /\ length l' = length l
        /\ forallb (fun x => wt G x t) l' = true /\ allowed ub st r end.
  Proof.
    intro Hf. induction l as [|x l IH]; intros pos Hp Hw; cbn [des_all].
    { split; [lia|]. repeat split; auto; discriminate. }
    cbn [forallb] in Hw. apply andb_true_iff in Hw as [Hx Hw].
    pose proof (Hf x pos Hp Hx) as S. destruct (f x pos) as [[r v] p]. cbn [safe_out] in S.
    destruct S as (S1 & S2 & S3).
    destruct r; try (split; [lia|]; split; [reflexivity|]; split; [|exact S3]; cbn [forallb]; now rewrite S2, Hw).
    specialize (IH p ltac:(lia) Hw).
    destruct (des_all f l p) as [[r' vs] p']. destruct IH as (I1 & I2 & I3 & I4).
    split; [lia|]. split; [cbn; lia|]. split; [|exact I4]. cbn [forallb]. now rewrite S2, I3.
  Qed.

  Lemma des_assoc_safe f s k t d :
    cmp_ok G (TAssoc s k t) -> safe_f t f -> wt G d t = true ->
    forall n acc pos, (pos <= length data)%nat -> wt G (VSeq acc) (TAssoc s k t) = true ->
      match des_assoc f (assoc_insert k) d n acc pos with (r, l, p) =>
        (pos <= p <= length data)%nat /\ wt G (VSeq l) (TAssoc s k t) = true
        /\ allowed ub st r end.
  Proof.
    intros Hc Hf Hd. induction n as [|n IH]; intros acc pos Hp Ha; cbn [des_assoc].
    { split; [lia|]. auto. }
    pose proof (Hf d pos Hp Hd) as S. destruct (f d pos) as [[r v] p]. cbn [safe_out] in S.
    destruct S as (S1 & S2 & S3). destruct r; try (split; [lia|]; auto).
    assert (Ha' : wt G (VSeq (assoc_insert k acc v)) (TAssoc s k t) = true)
      by now apply assoc_insert_wt.
    specialize (IH (assoc_insert k acc v) p ltac:(lia) Ha').
    destruct (des_assoc _ _ _ _ _ _) as [[r' l] p']. destruct IH as (I1 & I2 & I3).
    split; [lia|]. auto.
  Qed.

  Lemma des_inplace_safe dc f wrap cur d prior pos t t' :
    safe_f t' f -> wt G d t' = true -> (forall x, cur = Some x -> wt G x t' = true) ->
    wt G prior t = true -> (forall x, wt G x t' = true -> wt G (wrap x) t = true) ->
    (pos <= length data)%nat ->
    safe_out t pos (des_inplace dc f wrap cur d prior pos).
  Proof.
    intros Hf Hd Hc Hp Hw Hpos. unfold des_inplace. destruct dc.
    - assert (Hx : wt G (match cur with Some x => x | None => d end) t' = true)
        by (destruct cur; auto).
      pose proof (Hf _ pos Hpos Hx) as S. destruct (f _ pos) as [[r v] p]. cbn [safe_out] in *.
      destruct S as (S1 & S2 & S3). auto.
    - pose proof (Hf _ pos Hpos Hd) as S. destruct (f _ pos) as [[r v] p]. cbn [safe_out] in S.
      destruct S as (S1 & S2 & S3). destruct r; cbn [safe_out]; auto.
  Qed.

  Lemma des_ptr_safe f d prior pos t t' :
    safe_f t' f -> wt G d t' = true -> wt G prior t = true ->
    (forall x, wt G x t' = true -> wt G (VSome x) t = true) -> (pos <= length data)%nat ->
    safe_out t pos (des_ptr f d prior pos).
  Proof.
    intros Hf Hd Hp Hw Hpos. unfold des_ptr.
    pose proof (Hf _ pos Hpos Hd) as S. destruct (f _ pos) as [[r v] p]. cbn [safe_out] in S.
    destruct S as (S1 & S2 & S3). destruct r; cbn [safe_out]; auto.
  Qed.

  Lemma safe_out_weaken t pos pos' x : (pos <= pos')%nat -> safe_out t pos' x -> safe_out t pos x.
  Proof. destruct x as [[r v] p]. cbn [safe_out]. intros H (H1 & H2 & H3). split; [lia|auto]. Qed.

End SafeLoops.

Section Safe.
  Variables (G : tenv) (c : cfg) (data : list byte) (ub st : bool).
  Notation safe_out := (safe_out G data ub st).
  Notation safe_f := (safe_f G data ub st).
  Hypothesis (Hsm : small data).

  Lemma des_bytes_safe t l pos :
    wf G t = true -> bs t = true -> tall (flagged ub st) t = true ->
    (pos <= length data)%nat -> forallb (fun x => wt G x t) l = true ->
    match des_bytes c data t (length l) l pos with (r, l', p) =>
      (pos <= p <= length data)%nat /\ length l' = length l
      /\ forallb (fun x => wt G x t) l' = true /\ allowed ub st r end.
  Proof.
    intros Hw Hb Ht Hp Hl. rewrite des_bytes_eq by assumption.
    destruct (_ =? 0)%nat; [auto|].
    destruct (Nat.leb_spec (pos + length l * bsize t) (length data)); [|auto].
    destruct (parse_all _ _ _ _) as [vs|] eqn:E.
    - split; [lia|].
      assert (Hv : length vs = length l /\ Forall (fun v => wt G v t = true) vs).
      { eapply parse_all_forall; [|..|exact E]; [|apply window_length; lia].
        intros l0 v0 H1 H2. eapply objparse_wt; eauto. }
      destruct Hv as [H1 H2]. split; [exact H1|]. split; [|auto].
      rewrite forallb_forall. now rewrite Forall_forall in H2.
    - split; [lia|]. split; [reflexivity|]. split; [exact Hl|].
      split; [|discriminate]. intros _. destruct ub eqn:Eub; [reflexivity|exfalso].
      revert E. apply parse_all_some; [|apply window_length; lia].
      intros e He. apply objparse_some; auto.
      eapply tall_sub; [|exact Ht]. intros t0. unfold flagged. cbn [orb].
      intro H0. now apply andb_true_iff in H0.
  Qed.

  Lemma des_elems_safe (b : bool) f t l pos :
    wf G t = true -> tall (flagged ub st) t = true -> (b = true -> bs t = true) ->
    safe_f t f -> (pos <= length data)%nat -> forallb (fun x => wt G x t) l = true ->
    match des_elems c data b f t l pos with
    | (r, VSeq l', p) => (pos <= p <= length data)%nat /\ length l' = length l
      /\ forallb (fun x => wt G x t) l' = true /\ allowed ub st r
    | _ => False
    end.
  Proof.
    intros Hw Ht Hb Hf Hp Hl. unfold des_elems, seq_res. destruct b.
    - pose proof (des_bytes_safe t l pos Hw (Hb eq_refl) Ht Hp Hl) as S.
      destruct (des_bytes _ _ _ _ _ _) as [[r l'] p]. exact S.
    - pose proof (des_all_safe G data ub st f t Hf l pos Hp Hl) as S.
      destruct (des_all _ _ _) as [[r l'] p]. exact S.
  Qed.

  Lemma des_elems_safe_out (b : bool) f t' l pos t pos0 :
    wf G t' = true -> tall (flagged ub st) t' = true -> (b = true -> bs t' = true) ->
    safe_f t' f -> (pos0 <= pos <= length data)%nat -> forallb (fun x => wt G x t') l = true ->
    (forall l', length l' = length l -> forallb (fun x => wt G x t') l' = true -> wt G (VSeq l') t = true) ->
    safe_out t pos0 (des_elems c data b f t' l pos).
  Proof.
    intros H1 H2 H3 H4 H5 H6 H7.
    pose proof (des_elems_safe b f t' l pos H1 H2 H3 H4 ltac:(lia) H6) as S.
    destruct (des_elems _ _ _ _ _ _ _) as [[r v] p]. destruct v; try tauto.
    destruct S as (S1 & S2 & S3 & S4). cbn [safe_out]. split; [lia|]. split; auto.
  Qed.

  Hypothesis (HG : wf_env G) (Hds : wfsz (Some (dsize c)) = true).

  Lemma vec_resize_wt t n l r l' :
    wf G t = true -> forallb (fun x => wt G x t) l = true ->
    vec_resize G c t n l = (r, l') ->
    forallb (fun x => wt G x t) l' = true /\ allowed ub st r /\ (r = ROk -> length l' = N.to_nat n).
  Proof.
    intros Hw Hl. unfold vec_resize. destruct (over_limit c t n).
    { intro H; injection H as <- <-. repeat split; auto; discriminate. }
    destruct (_ || _); intro H; injection H as <- <-.
    - split; [|split; [auto|]].
      + rewrite forallb_forall in *. apply Forall_forall, vresize_forall.
        * now apply wt_dflt.
        * now rewrite Forall_forall.
      + intros _. apply vresize_length.
    - repeat split; auto; discriminate.
  Qed.

  Variable rec : nat -> val -> nat -> dres.
  Hypothesis Hrec : forall k, st = true -> safe_f (TRec k) (rec k).

  Lemma des_ty_safe t :
    wf G t = true -> tall (flagged ub st) t = true -> tallP (cmp_ok G) t ->
    safe_f t (des_ty G c data rec t).
  Proof.
    induction t using ty_ind'; intros Hw Hf Hcp prior pos Hp Hpr.
    - (* scalar *)
      cbn [des_ty nres]. pose proof (des_scalar_safe c w (match prior with VN n => n | _ => 0 end) data pos Hsm Hp) as S.
      cbn beta in S. destruct prior; try discriminate.
      destruct (des_scalar _ _ _ _ _) as [[r n'] p] eqn:E. destruct r; try tauto; cbn [safe_out nres].
      + split; [lia|]. split; [|auto]. cbn [wt]. now apply N.ltb_lt.
      + subst p. split; [lia|]. split; [|auto].
        rewrite des_scalar_eq in E by assumption. destruct (_ <=? _)%nat in E; [discriminate|].
        injection E as _ <-. exact Hpr.
    - (* bool *)
      cbn [des_ty]. pose proof (des_scalar_safe c 1 0 data pos Hsm Hp) as S. cbn beta in S.
      destruct (des_scalar _ _ _ _ _) as [[r n'] p]. destruct r; try tauto; cbn [safe_out].
      + destruct (n' <? 2) eqn:E; cbn [safe_out]; (split; [lia|]; split; [|auto]); [exact E|exact Hpr|].
        split; [|discriminate]. intros _. cbn [tall] in Hf. unfold flagged in Hf. cbn [not_bool] in Hf.
        destruct ub; [reflexivity|]. discriminate.
      + subst p. split; [lia|]. auto.
    - (* varint *)
      cbn [des_ty nres wf] in *.
      pose proof (des_varint_safe w zz (match prior with VN n => n | _ => 0 end) Hw data pos Hsm Hp) as S.
      cbn beta in S. destruct prior; try discriminate.
      destruct (des_varint _ _ _ _ _) as [[r n'] p] eqn:E. destruct r; try tauto; cbn [safe_out nres].
      + split; [lia|]. split; [|auto]. cbn [wt]. now apply N.ltb_lt.
      + subst p. split; [lia|]. split; [|auto].
        rewrite des_varint_eq in E by assumption. destruct (leb_value _) as [[? ?]|] in E; [discriminate|].
        injection E as _ <-. exact Hpr.
    - cbn [des_ty safe_out]. auto.
    - (* struct *)
      cbn [des_ty]. destruct (negb (s_expl si) && _); [cbn [safe_out]; auto|].
      destruct (as_bytes c (TStruct si ms)) eqn:Eb.
      + pose proof (des_bytes_safe (TStruct si ms) [prior] pos Hw (as_bytes_bs _ _ Eb) Hf Hp
          ltac:(cbn [forallb]; now rewrite Hpr)) as S.
        cbn [length] in S. destruct (des_bytes _ _ _ _ _ _) as [[r l] p].
        destruct S as (S1 & S2 & S3 & S4). destruct l as [|x [|]]; try discriminate S2.
        cbn [forallb] in S3. rewrite andb_true_r in S3. cbn [safe_out]. auto.
      + destruct prior; try discriminate. cbn [as_seq wt] in *.
        cbn [wf] in Hw. rewrite !andb_true_iff in Hw. destruct Hw as [[_ Hw] _].
        cbn [tall] in Hf. apply andb_true_iff in Hf as [_ Hf].
        cbn [tallP] in Hcp. destruct Hcp as [_ Hcp]. apply tallP_list in Hcp.
        assert (HF : Forall (fun m => safe_f m (des_ty G c data rec m)) ms).
        { rewrite forallb_forall in *. rewrite Forall_forall in *. intros m Hin. apply H; auto. }
        pose proof (des_many_safe G data ub st (des_ty G c data rec) ms HF l pos Hp Hpr) as S.
        destruct (des_many _ _ _ _) as [[r l'] p]. exact S.
    - (* named class *)
      cbn [des_ty]. apply Hrec; auto. cbn [tall] in Hf. unfold flagged in Hf. cbn [not_rec] in Hf.
      destruct st; auto. rewrite andb_false_r in Hf. discriminate.
    - (* array *)
      destruct prior; try discriminate. cbn [wt] in Hpr. apply andb_true_iff in Hpr as [Hn Hpr].
      cbn [des_ty as_seq]. cbn [wf] in Hw. apply andb_true_iff in Hw as [_ Hw].
      cbn [tall tallP] in *. apply andb_true_iff in Hf as [_ Hf]. destruct Hcp as [_ Hcp].
      apply des_elems_safe_out; auto; [apply as_bytes_bs|].
      intros l' Hl Hl'. cbn [wt]. now rewrite Hl, Hn, Hl'.
    - (* tuple *)
      destruct prior; try discriminate. cbn [wt] in Hpr. cbn [des_ty as_seq]. cbn [wf] in Hw.
      cbn [tall tallP] in *. apply andb_true_iff in Hf as [_ Hf]. destruct Hcp as [_ Hcp].
      apply tallP_list in Hcp.
      assert (HF : Forall (fun m => safe_f m (des_ty G c data rec m)) ts).
      { rewrite forallb_forall in *. rewrite Forall_forall in *. intros m Hin. apply H; auto. }
      pose proof (des_many_safe G data ub st (des_ty G c data rec) ts HF l pos Hp Hpr) as S.
      destruct (des_many _ _ _ _) as [[r l'] p]. exact S.
    - (* vec *)
      destruct prior; try discriminate. cbn [wt] in Hpr. cbn [des_ty as_seq].
      cbn [wf] in Hw. apply andb_true_iff in Hw as [Hs Hw]. apply (wfsz_sz_of c) in Hs; [|exact Hds].
      cbn [tall tallP] in *. apply andb_true_iff in Hf as [_ Hf]. destruct Hcp as [_ Hcp].
      assert (Hb : as_bytes c t && cg = true -> bs t = true)
        by (intro Hb; apply andb_true_iff in Hb as [Hb _]; eapply as_bytes_bs; eauto).
      assert (E : safe_out (TVec s cg t) pos
        match des_size c data (sz_of c s) pos with
            | (ROk, n, pos') =>
                match vec_resize G c t n l with
                | (ROk, l) => des_elems c data (as_bytes c t && cg) (des_ty G c data rec t) t l pos'
                | (r, l) => (r, VSeq l, pos')
                end
            | (r, _, pos') => (r, VSeq l, pos')
            end).
      { pose proof (des_size_safe c (sz_of c s) Hs data pos Hsm Hp) as S. cbn beta in S.
        destruct (des_size _ _ _ _) as [[r n] p]. destruct r; try tauto; cbn [safe_out].
        - destruct S as [S1 S2]. destruct (vec_resize G c t n l) as [r l'] eqn:Ev.
          pose proof (vec_resize_wt t n l r l' Hw Hpr Ev) as (V1 & V2 & V3).
          destruct r; try (cbn [safe_out wt]; split; [lia|]; auto).
          apply des_elems_safe_out; auto.
        - subst p. split; [lia|]. auto. }
      destruct (sz_of c s); [|exact E..].
      apply des_elems_safe_out; auto.
    - (* assoc *)
      cbn [des_ty].
      cbn [wf] in Hw. apply andb_true_iff in Hw as [Hs Hw]. apply (wfsz_sz_of c) in Hs; [|exact Hds].
      cbn [tall tallP] in *. apply andb_true_iff in Hf as [_ Hf]. destruct Hcp as [Hk Hcp].
      assert (L : forall n p, (pos <= p <= length data)%nat ->
        safe_out (TAssoc s k t) pos
          (seq_res (des_assoc (des_ty G c data rec t) (assoc_insert k) (dflt G t) n [] p))).
      { intros n p Hpp.
        pose proof (des_assoc_safe G data ub st (des_ty G c data rec t) s k t (dflt G t) Hk
           (IHt Hw Hf Hcp) (wt_dflt G t HG Hw) n [] p ltac:(lia) eq_refl) as S.
        unfold seq_res. destruct (des_assoc _ _ _ _ _ _) as [[r l] p']. cbn [safe_out].
        destruct S as (S1 & S2 & S3). split; [lia|]. auto. }
      pose proof (des_size_safe c (sz_of c s) Hs data pos Hsm Hp) as S. cbn beta in S.
      destruct (sz_of c s) eqn:Es; [apply L; lia|..];
      (destruct (des_size _ _ _ _) as [[r n] p]; destruct r; try tauto;
        [apply L; lia|cbn [safe_out]; subst p; auto]).
    - (* opt *)
      cbn [des_ty wf] in *. cbn [tall tallP] in *. apply andb_true_iff in Hf as [_ Hf].
      destruct Hcp as [_ Hcp]. unfold des_flag.
      pose proof (des_scalar_safe c 1 0 data pos Hsm Hp) as S. cbn beta in S.
      destruct (des_scalar _ _ _ _ _) as [[r n'] p]. destruct r; try tauto; cbn [safe_out].
      + destruct n' as [|q]; cbn [safe_out]; [split; [lia|]; auto|].
        eapply safe_out_weaken; [apply S|].
        eapply des_inplace_safe with (t' := t); auto; [now apply wt_dflt| |lia].
        intros x Hx. destruct prior; try discriminate. injection Hx as <-. exact Hpr.
      + subst p. auto.
    - (* optptr *)
      cbn [des_ty wf] in *. cbn [tall tallP] in *. apply andb_true_iff in Hf as [_ Hf].
      destruct Hcp as [_ Hcp]. unfold des_flag.
      pose proof (des_scalar_safe c 1 0 data pos Hsm Hp) as S. cbn beta in S.
      destruct (des_scalar _ _ _ _ _) as [[r n'] p]. destruct r; try tauto; cbn [safe_out].
      + destruct n' as [|q]; cbn [safe_out]; [split; [lia|]; auto|].
        eapply safe_out_weaken; [apply S|].
        eapply des_ptr_safe with (t' := t); auto; [now apply wt_dflt|lia].
      + subst p. auto.
    - (* ptr *)
      cbn [des_ty wf] in *. cbn [tall tallP] in *. apply andb_true_iff in Hf as [_ Hf].
      destruct Hcp as [_ Hcp].
      eapply des_ptr_safe with (t' := t); auto. now apply wt_dflt.
    - (* variant *)
      rewrite des_variant_eq.
      cbn [tall tallP] in *. apply andb_true_iff in Hf as [_ Hf].
      destruct Hcp as [_ Hcp]. apply tallP_list in Hcp.
      cbn [wf] in Hw. rewrite !andb_true_iff in Hw. destruct Hw as [[[[Hl Hm] Hd] Hi] Hw].
      pose proof (des_id_safe c ik data pos Hsm Hp) as S. cbn beta in S.
      destruct (des_id _ _ _ _) as [[r n'] p]. destruct r; try tauto; cbn [safe_out].
      + destruct (find_id meta n') as [i|] eqn:Ef; [|cbn [safe_out]; split; [lia|]; auto].
        apply find_id_some in Ef as [dc Ef].
        assert (Hi' : (i < length alts)%nat).
        { apply Nat.eqb_eq in Hm. rewrite <- Hm. apply nth_error_Some. congruence. }
        destruct (nth_error alts i) as [t'|] eqn:Ea; [|now apply nth_error_None in Ea; lia].
        eapply safe_out_weaken; [apply S|].
        pose proof (nth_error_In _ _ Ea) as Hin.
        rewrite forallb_forall in Hw, Hf. rewrite Forall_forall in H, Hcp.
        eapply des_inplace_safe with (t' := t'); auto; [now apply wt_dflt; auto|..|lia].
        * intros x Hx. destruct prior; try discriminate. cbn [active] in Hx.
          destruct (Nat.eqb_spec i i0) as [->|]; [|discriminate]. injection Hx as <-.
          cbn [wt] in Hpr. now rewrite Ea in Hpr.
        * intros x Hx. cbn [wt]. now rewrite Ea.
      + subst p. auto.
    - (* bitset *)
      cbn [des_ty]. unfold des_bitset. rewrite remaining_small by assumption.
      destruct (N.ltb_spec (N.of_nat (length data - pos)) (N.of_nat (bitset_bytes n)));
        [cbn [safe_out]; auto|].
      rewrite load_some by lia. cbn [safe_out wt]. split; [lia|]. split; [|auto].
      assert (L : forall e i m, length (get_bits e i m) = m)
        by (intros e i m; revert i; induction m; intro i; cbn; auto).
      now rewrite L, Nat.eqb_refl.
    - (* view *)
      destruct k as [s|n|]; cbn [des_ty].
      + cbn [wf] in Hw. apply (wfsz_sz_of c) in Hw; [|exact Hds].
        pose proof (des_size_safe c (sz_of c s) Hw data pos Hsm Hp) as S. cbn beta in S.
        destruct (des_size _ _ _ _) as [[r n] p]. destruct r; try tauto; cbn [safe_out];
          [|subst p; auto].
        assert (E : safe_out (TView (VwSized s)) pos
          (if remaining data p <? n then (RErr result_out_of_range, prior, p)
                else match load data p (N.to_nat n) with
                     | Some e => (ROk, VBytes e, (p + N.to_nat n)%nat)
                     | None => (RUB, prior, p)
                     end)).
        { rewrite remaining_small by (assumption || lia).
          destruct (N.ltb_spec (N.of_nat (length data - p)) n); cbn [safe_out]; [split; [lia|]; auto|].
          rewrite load_some by lia. cbn [safe_out wt]. split; [lia|]; auto. }
        destruct (sz_of c s); [|exact E..].
        rewrite load_some by lia. cbn [safe_out wt]. split; [lia|]; auto.
      + rewrite remaining_small by assumption.
        destruct (N.ltb_spec (N.of_nat (length data - pos)) (N.of_nat n)); [cbn [safe_out]; auto|].
        rewrite load_some by lia. cbn [safe_out wt]. rewrite window_length by lia.
        rewrite Nat.eqb_refl. split; [lia|]; auto.
      + rewrite load_some by lia. cbn [safe_out wt]. split; [lia|]; auto.
    - (* span *)
      destruct prior; try discriminate. cbn [wt] in Hpr. cbn [des_ty as_seq].
      cbn [wf] in Hw. apply andb_true_iff in Hw as [Hs Hw]. apply (wfsz_sz_of c) in Hs; [|exact Hds].
      cbn [tall tallP] in *. apply andb_true_iff in Hf as [_ Hf]. destruct Hcp as [_ Hcp].
      assert (E : safe_out (TSpan s t) pos
        match des_size c data (sz_of c s) pos with
            | (ROk, n, pos') =>
                if N.of_nat (length l) <? n
                then (RErr result_out_of_range, VSeq l, pos')
                else des_elems c data (as_bytes c t) (des_ty G c data rec t) t
                       (firstn (N.to_nat n) l) pos'
            | (r, _, pos') => (r, VSeq l, pos')
            end).
      { pose proof (des_size_safe c (sz_of c s) Hs data pos Hsm Hp) as S. cbn beta in S.
        destruct (des_size _ _ _ _) as [[r n] p]. destruct r; try tauto; cbn [safe_out].
        - destruct S as [S1 S2]. destruct (_ <? n); [cbn [safe_out wt]; split; [lia|]; auto|].
          apply des_elems_safe_out; auto; [apply as_bytes_bs|].
          rewrite forallb_forall in *. intros x Hin. apply Hpr.
          rewrite <- (firstn_skipn (N.to_nat n) l). apply in_or_app. now left.
        - subst p. split; [lia|]. auto. }
      destruct (sz_of c s); [|exact E..].
      apply des_elems_safe_out; auto. apply as_bytes_bs.
  Qed.
End Safe.

Section SafeRec.
  Variables (G : tenv) (c : cfg) (data : list byte) (ub st : bool).
  Hypothesis (HG : wf_env G) (Hds : wfsz (Some (dsize c)) = true) (Hsm : small data).
  Hypothesis (Hcmp : tallP_env (cmp_ok G) G).
  Hypothesis (Hfl : tall_env (flagged ub st) G).

  Lemma des_rec_safe fuel k : st = true -> safe_f G data ub st (TRec k) (des_rec G c data fuel k).
  Proof.
    intro Hst. revert k. induction fuel as [|f IH]; intros k prior pos Hp Hpr; cbn [des_rec].
    - cbn [safe_out]. split; [lia|]. split; auto. split; [discriminate|auto].
    - destruct prior; try discriminate. cbn [wt as_seq] in *.
      assert (HF : Forall (fun m => safe_f G data ub st m (des_ty G c data (des_rec G c data f) m)) (t_mems G k)).
      { rewrite Forall_forall. intros m Hin. apply des_ty_safe; auto.
        - destruct (HG k) as [Hw _]. rewrite forallb_forall in Hw. auto.
        - specialize (Hfl k). rewrite forallb_forall in Hfl. auto.
        - specialize (Hcmp k). rewrite Forall_forall in Hcmp. auto. }
      pose proof (des_many_safe G data ub st _ _ HF l pos Hp Hpr) as S.
      unfold seq_res. destruct (des_many _ _ _ _) as [[r l'] p]. exact S.
  Qed.

  Lemma des_safe fuel t :
    wf G t = true -> tall (flagged ub st) t = true -> tallP (cmp_ok G) t ->
    safe_f G data ub st t (des G c data fuel t).
  Proof. intros. unfold des. apply des_ty_safe; auto. intros k Hst. now apply des_rec_safe. Qed.

  Lemma in_call_safe fuel ts :
    forallb (wf G) ts = true -> forallb (tall (flagged ub st)) ts = true -> Forall (tallP (cmp_ok G)) ts ->
    forall priors pos, (pos <= length data)%nat ->
      forall2b (fun x m => wt G x m) priors ts = true ->
      match in_call G c data fuel ts priors pos with (r, l, p) =>
        (pos <= p <= length data)%nat /\ forall2b (fun x m => wt G x m) l ts = true
        /\ allowed ub st r end.
  Proof.
    intros H1 H2 H3. apply des_many_safe. rewrite forallb_forall in *. rewrite Forall_forall in *.
    intros m Hin. apply des_safe; auto.
  Qed.
End SafeRec.
