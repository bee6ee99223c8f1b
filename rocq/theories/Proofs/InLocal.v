(** Reading depends only on the bytes consumed; truncated data are rejected. *)

From Coq Require Import List NArith ZArith Lia Bool Arith.
From Coq Require Import ZifyBool ZifyNat ZifyN.
From Verif Require Import Base.Bytes Model.Types Model.Machine Model.Varint Model.Out Model.In
  Spec.Leb128 Spec.Wire Proofs.VarintP Proofs.OutP Proofs.InBase Proofs.InSafe.
Import ListNotations.
Local Open Scope N_scope.

Ltac Zify.zify_post_hook ::= Z.div_mod_to_equations.

Lemma tall_true p t : (forall t, p t = true) -> tall p t = true.
Proof.
  intro Hp. induction t using ty_ind'; cbn [tall]; rewrite Hp; cbn [andb]; auto;
    rewrite forallb_forall; rewrite Forall_forall in H; auto.
Qed.

Lemma flagged_true t : tall (flagged true true) t = true.
Proof. apply tall_true. reflexivity. Qed.

Lemma flagged_env_true G : tall_env (flagged true true) G.
Proof. intro k. rewrite forallb_forall. intros. apply flagged_true. Qed.

(** Not a view that takes the rest of the input. *)
Definition delimited (c : cfg) (t : ty) : bool :=
  match t with
  | TView VwRest => false
  | TView (VwSized s) => match sz_of c s with SzNone => false | _ => true end
  | _ => true
  end.

Section Local.
  Variables (G : tenv) (c : cfg) (data data' : list byte).
  Hypothesis (HG : wf_env G) (Hds : wfsz (Some (dsize c)) = true).
  Hypothesis (Hsm : small data) (Hsm' : small data').
  Hypothesis (Hcmp : tallP_env (cmp_ok G) G).
  Hypothesis (Hdl : tall_env (delimited c) G).

  Definition lres {A} (v : A) (p : nat) (x' : res * A * nat) : Prop :=
    if (p <=? length data')%nat then x' = (ROk, v, p)
    else fst (fst x') = RErr result_out_of_range.

  Definition local_f (t : ty) (f f' : val -> nat -> dres) : Prop :=
    forall prior pos v p, (pos <= length data)%nat -> (pos <= length data')%nat -> wt G prior t = true ->
      f prior pos = (ROk, v, p) -> agree data data' pos (Nat.min p (length data')) ->
      lres v p (f' prior pos).

  Notation safe := (safe_f G data true true).

  Lemma nlocal_lres (g : nread) prior pos n p :
    nlocal g -> (pos <= length data)%nat -> (pos <= length data')%nat -> g data pos = (ROk, n, p) ->
    agree data data' pos (Nat.min p (length data')) ->
    match g data' pos with
    | (ROk, n', p') => n' = n /\ p' = p /\ (p <= length data')%nat
    | (r, _, _) => r = RErr result_out_of_range /\ (length data' < p)%nat
    end /\ prior = prior :> val.
  Proof.
    intros Hg Hp Hp' E Hag. split; [|reflexivity].
    pose proof (Hg data data' pos n p Hsm Hsm' Hp Hp' E Hag) as L.
    destruct (Nat.leb_spec p (length data')).
    - rewrite L. auto.
    - destruct L as [L _]. destruct (g data' pos) as [[r n'] p']. cbn [fst snd] in L. subst r.
      auto.
  Qed.

  Lemma lres_out {A} (v : A) p r (x : A) q :
    (length data' < p)%nat -> r = RErr result_out_of_range -> lres v p (r, x, q).
  Proof.
    intros H ->. unfold lres. destruct (Nat.leb_spec p (length data')); [lia|reflexivity].
  Qed.

  Lemma des_many_local f f' ms :
    Forall (fun m => safe m (f m)) ms ->
    Forall (fun m => local_f m (f m) (f' m)) ms ->
    forall priors pos l p, (pos <= length data)%nat -> (pos <= length data')%nat ->
      forall2b (fun x m => wt G x m) priors ms = true ->
      des_many f ms priors pos = (ROk, l, p) -> agree data data' pos (Nat.min p (length data')) ->
      lres l p (des_many f' ms priors pos).
  Proof.
    induction ms as [|m ms IH]; intros HS HL priors pos l p Hp Hp' Hw H Hag; cbn [des_many] in *.
    { injection H as <- <-. unfold lres. destruct (Nat.leb_spec pos (length data')); [reflexivity|lia]. }
    inversion HS as [|? ? HSm HSs]; inversion HL as [|? ? HLm HLs]; subst.
    destruct priors as [|x priors]; [discriminate|]. cbn [forall2b tl] in *.
    apply andb_true_iff in Hw as [Hx Hw].
    destruct (f m x pos) as [[r v] p1] eqn:E. destruct r; try discriminate.
    pose proof (HSm x pos Hp Hx) as S. rewrite E in S. cbn [safe_out] in S. destruct S as (S1 & S2 & _).
    pose proof (des_many_safe G data true true f ms HSs priors p1 ltac:(lia) Hw) as S'.
    destruct (des_many f ms priors p1) as [[r2 l2] p2] eqn:E2. destruct S' as (S3 & _ & _).
    injection H as -> <- <-.
    specialize (HLm x pos v p1 Hp Hp' Hx E ltac:(eapply agree_sub; eauto; lia)).
    unfold lres in HLm |- *.
    destruct (Nat.leb_spec p1 (length data')).
    - rewrite HLm.
      specialize (IH HSs HLs priors p1 l2 p2 ltac:(lia) ltac:(lia) Hw E2 ltac:(eapply agree_sub; eauto; lia)).
      unfold lres in IH. destruct (Nat.leb_spec p2 (length data')).
      + now rewrite IH.
      + destruct (des_many f' ms priors p1) as [[r3 l3] p3]. exact IH.
    - destruct (Nat.leb_spec p2 (length data')); [lia|].
      destruct (f' m x pos) as [[r3 l3] p3]. cbn [fst] in HLm. subst r3. reflexivity.
  Qed.

  Lemma des_all_local f f' t :
    safe t f -> local_f t f f' ->
    forall xs pos l p, (pos <= length data)%nat -> (pos <= length data')%nat ->
      forallb (fun x => wt G x t) xs = true ->
      des_all f xs pos = (ROk, l, p) -> agree data data' pos (Nat.min p (length data')) ->
      lres l p (des_all f' xs pos).
  Proof.
    intros HS HL. induction xs as [|x xs IH]; intros pos l p Hp Hp' Hw H Hag; cbn [des_all] in *.
    { injection H as <- <-. unfold lres. destruct (Nat.leb_spec pos (length data')); [reflexivity|lia]. }
    cbn [forallb] in *. apply andb_true_iff in Hw as [Hx Hw].
    destruct (f x pos) as [[r v] p1] eqn:E. destruct r; try discriminate.
    pose proof (HS x pos Hp Hx) as S. rewrite E in S. cbn [safe_out] in S. destruct S as (S1 & S2 & _).
    assert (S' : match des_all f xs p1 with (r, l', p) => (p1 <= p <= length data)%nat end).
    { clear -HS Hw S1. assert (Hq : (p1 <= length data)%nat) by lia. clear S1. revert p1 Hq.
      induction xs as [|x xs IH]; intros p1 Hq; cbn [des_all]; [lia|].
      cbn [forallb] in *. apply andb_true_iff in Hw as [Hx Hw].
      pose proof (HS x p1 Hq Hx) as S. destruct (f x p1) as [[r v] q]. cbn [safe_out] in S.
      destruct S as (S1 & S2 & _). destruct r; try lia.
      specialize (IH Hw q ltac:(lia)). destruct (des_all f xs q) as [[? ?] ?]. lia. }
    destruct (des_all f xs p1) as [[r2 l2] p2] eqn:E2.
    injection H as -> <- <-.
    specialize (HL x pos v p1 Hp Hp' Hx E ltac:(eapply agree_sub; eauto; lia)).
    unfold lres in HL |- *.
    destruct (Nat.leb_spec p1 (length data')).
    - rewrite HL.
      specialize (IH p1 l2 p2 ltac:(lia) ltac:(lia) Hw E2 ltac:(eapply agree_sub; eauto; lia)).
      unfold lres in IH. destruct (Nat.leb_spec p2 (length data')).
      + now rewrite IH.
      + destruct (des_all f' xs p1) as [[r3 l3] p3]. exact IH.
    - destruct (Nat.leb_spec p2 (length data')); [lia|].
      destruct (f' x pos) as [[r3 l3] p3]. cbn [fst] in HL. subst r3. reflexivity.
  Qed.

  Lemma des_assoc_local f f' ins d t :
    safe t f -> local_f t f f' -> wt G d t = true ->
    forall n acc pos l p, (pos <= length data)%nat -> (pos <= length data')%nat ->
      des_assoc f ins d n acc pos = (ROk, l, p) -> agree data data' pos (Nat.min p (length data')) ->
      (pos <= p <= length data)%nat /\ lres l p (des_assoc f' ins d n acc pos).
  Proof.
    intros HS HL Hd. induction n as [|n IH]; intros acc pos l p Hp Hp' H Hag; cbn [des_assoc] in *.
    { injection H as <- <-. split; [lia|]. unfold lres.
      destruct (Nat.leb_spec pos (length data')); [reflexivity|lia]. }
    destruct (f d pos) as [[r v] p1] eqn:E. destruct r; try discriminate.
    pose proof (HS d pos Hp Hd) as S. rewrite E in S. cbn [safe_out] in S. destruct S as (S1 & S2 & _).
    assert (Hm : (p1 <= p)%nat).
    { clear -HS Hd H S1. assert (Hq : (p1 <= length data)%nat) by lia. clear S1. revert p1 v acc H Hq.
      induction n as [|n IH]; intros p1 v acc H Hq; cbn [des_assoc] in H.
      - injection H as _ <-. lia.
      - pose proof (HS d p1 Hq Hd) as S. destruct (f d p1) as [[r x] q]. cbn [safe_out] in S.
        destruct S as (S1 & S2 & _). destruct r; try discriminate.
        specialize (IH _ _ _ H ltac:(lia)). lia. }
    specialize (HL d pos v p1 Hp Hp' Hd E ltac:(eapply agree_sub; eauto; lia)).
    unfold lres in HL |- *.
    destruct (Nat.leb_spec p1 (length data')).
    - rewrite HL.
      specialize (IH (ins acc v) p1 l p ltac:(lia) ltac:(lia) H ltac:(eapply agree_sub; eauto; lia)).
      destruct IH as [I1 I2]. split; [lia|]. exact I2.
    - split.
      + split; [lia|]. clear -HS Hd H S1. assert (Hq : (p1 <= length data)%nat) by lia. clear S1.
        revert p1 v acc H Hq.
        induction n as [|n IH]; intros p1 v acc H Hq; cbn [des_assoc] in H.
        * injection H as _ <-. lia.
        * pose proof (HS d p1 Hq Hd) as S. destruct (f d p1) as [[r x] q]. cbn [safe_out] in S.
          destruct S as (S1 & S2 & _). destruct r; try discriminate.
          apply (IH _ _ _ H ltac:(lia)).
      + destruct (Nat.leb_spec p (length data')); [lia|].
        destruct (f' d pos) as [[r3 l3] p3]. cbn [fst] in HL. subst r3. reflexivity.
  Qed.

  Lemma des_bytes_local t xs pos l p :
    (pos <= length data)%nat -> (pos <= length data')%nat ->
    des_bytes c data t (length xs) xs pos = (ROk, l, p) ->
    agree data data' pos (Nat.min p (length data')) ->
    lres l p (des_bytes c data' t (length xs) xs pos).
  Proof.
    intros Hp Hp' H Hag. rewrite des_bytes_eq in * by assumption.
    destruct (Nat.eqb_spec (length xs * bsize t) 0).
    { injection H as <- <-. unfold lres. destruct (Nat.leb_spec pos (length data')); [reflexivity|lia]. }
    destruct (Nat.leb_spec (pos + length xs * bsize t) (length data)); [|discriminate].
    destruct (parse_all _ _ _ _) as [vs|] eqn:E; [|discriminate].
    injection H as <- <-. unfold lres.
    destruct (Nat.leb_spec (pos + length xs * bsize t) (length data')); [|reflexivity].
    rewrite <- (agree_window data data' pos (pos + length xs * bsize t)); try lia.
    - now rewrite E.
    - eapply agree_sub; eauto; lia.
  Qed.

  Lemma seq_lres l p x : lres l p x -> lres (VSeq l) p (seq_res x).
  Proof.
    unfold lres, seq_res. destruct x as [[r l'] q]. destruct (_ <=? _)%nat; [|auto].
    intro H. now injection H as -> -> ->.
  Qed.

  Lemma des_elems_local b f f' t xs pos v p :
    safe t f -> local_f t f f' -> (pos <= length data)%nat -> (pos <= length data')%nat ->
    forallb (fun x => wt G x t) xs = true ->
    des_elems c data b f t xs pos = (ROk, v, p) ->
    agree data data' pos (Nat.min p (length data')) ->
    lres v p (des_elems c data' b f' t xs pos).
  Proof.
    intros HS HL Hp Hp' Hw H Hag. unfold des_elems in *. destruct b.
    - destruct (des_bytes c data t (length xs) xs pos) as [[r l] q] eqn:E. cbn [seq_res] in H.
      injection H as -> <- ->. apply seq_lres. now apply des_bytes_local.
    - destruct (des_all f xs pos) as [[r l] q] eqn:E. cbn [seq_res] in H.
      injection H as -> <- ->. apply seq_lres. eapply des_all_local; eauto.
  Qed.

  Lemma des_inplace_local dc f f' wrap cur d prior pos t v p :
    local_f t f f' -> wt G d t = true -> (forall x, cur = Some x -> wt G x t = true) ->
    (pos <= length data)%nat -> (pos <= length data')%nat ->
    des_inplace dc f wrap cur d prior pos = (ROk, v, p) ->
    agree data data' pos (Nat.min p (length data')) ->
    lres v p (des_inplace dc f' wrap cur d prior pos).
  Proof.
    intros HL Hd Hc Hp Hp' H Hag. unfold des_inplace in *. destruct dc.
    - assert (Hx : wt G (match cur with Some x => x | None => d end) t = true) by (destruct cur; auto).
      destruct (f _ pos) as [[r x] q] eqn:E. injection H as -> <- ->.
      specialize (HL _ _ _ _ Hp Hp' Hx E Hag). unfold lres in *.
      destruct (_ <=? _)%nat; [now rewrite HL|].
      destruct (f' _ pos) as [[r' x'] q']. exact HL.
    - destruct (f d pos) as [[r x] q] eqn:E. destruct r; try discriminate. injection H as <- <-.
      specialize (HL _ _ _ _ Hp Hp' Hd E Hag). unfold lres in *.
      destruct (_ <=? _)%nat; [now rewrite HL|].
      destruct (f' d pos) as [[r' x'] q']. cbn [fst] in HL. subst r'. reflexivity.
  Qed.

  Lemma des_ptr_local f f' d prior pos t v p :
    local_f t f f' -> wt G d t = true ->
    (pos <= length data)%nat -> (pos <= length data')%nat ->
    des_ptr f d prior pos = (ROk, v, p) ->
    agree data data' pos (Nat.min p (length data')) ->
    lres v p (des_ptr f' d prior pos).
  Proof.
    intros HL Hd Hp Hp' H Hag. unfold des_ptr in *.
    destruct (f d pos) as [[r x] q] eqn:E. destruct r; try discriminate. injection H as <- <-.
    specialize (HL _ _ _ _ Hp Hp' Hd E Hag). unfold lres in *.
    destruct (_ <=? _)%nat; [now rewrite HL|].
    destruct (f' d pos) as [[r' x'] q']. cbn [fst] in HL. subst r'. reflexivity.
  Qed.

  Variable rec rec' : nat -> val -> nat -> dres.
  Hypothesis Hrec : forall k, safe (TRec k) (rec k).
  Hypothesis Hloc : forall k, local_f (TRec k) (rec k) (rec' k).

  Lemma bytes_f_safe t : wf G t = true -> tallP (cmp_ok G) t -> safe t (des_ty G c data rec t).
  Proof.
    intros Hw Hc. apply des_ty_safe; auto using flagged_true, flagged_env_true.
  Qed.

  Lemma des_ty_local t :
    wf G t = true -> tall (delimited c) t = true -> tallP (cmp_ok G) t ->
    local_f t (des_ty G c data rec t) (des_ty G c data' rec' t).
  Proof.
    induction t using ty_ind'; intros Hw Hf Hcp prior pos v p Hp Hp' Hpr E Hag.
    - (* scalar *)
      cbn [des_ty nres] in *. set (q := match prior with VN n => n | _ => 0 end) in *.
      destruct (des_scalar c data w q pos) as [[r n] p1] eqn:E1. injection E as -> <- ->.
      destruct (nlocal_lres _ prior pos n p (des_scalar_local c w q) Hp Hp' E1 Hag) as [L _].
      cbn beta in L. destruct (des_scalar c data' w q pos) as [[r' n'] p'].
      cbn [nres]. destruct r'; [destruct L as (-> & -> & L)|destruct L as [L1 L]..]; try (now apply lres_out).
      unfold lres. destruct (Nat.leb_spec p (length data')); [reflexivity|lia].
    - (* bool *)
      cbn [des_ty] in *.
      destruct (des_scalar c data 1 0 pos) as [[r n] p1] eqn:E1. destruct r; try discriminate.
      destruct (n <? 2) eqn:E2; try discriminate. injection E as <- ->.
      destruct (nlocal_lres _ prior pos n p (des_scalar_local c 1 0) Hp Hp' E1 Hag) as [L _].
      cbn beta in L. destruct (des_scalar c data' 1 0 pos) as [[r' n'] p'].
      destruct r'; [destruct L as (-> & -> & L)|destruct L as [L1 L]..]; try (now apply lres_out).
      rewrite E2. unfold lres. destruct (Nat.leb_spec p (length data')); [reflexivity|lia].
    - (* varint *)
      cbn [des_ty nres wf] in *. set (q := match prior with VN n => n | _ => 0 end) in *.
      destruct (des_varint w zz q data pos) as [[r n] p1] eqn:E1. injection E as -> <- ->.
      destruct (nlocal_lres _ prior pos n p (des_varint_local w zz q Hw) Hp Hp' E1 Hag) as [L _].
      cbn beta in L. destruct (des_varint w zz q data' pos) as [[r' n'] p'].
      cbn [nres]. destruct r'; [destruct L as (-> & -> & L)|destruct L as [L1 L]..]; try (now apply lres_out).
      unfold lres. destruct (Nat.leb_spec p (length data')); [reflexivity|lia].
    - cbn [des_ty] in *. injection E as <- <-. unfold lres.
      destruct (Nat.leb_spec pos (length data')); [reflexivity|lia].
    - (* struct *)
      cbn [des_ty] in *. destruct (negb (s_expl si) && _).
      { injection E as <- <-. unfold lres. destruct (Nat.leb_spec pos (length data')); [reflexivity|lia]. }
      destruct (as_bytes c (TStruct si ms)) eqn:Eb.
      + destruct (des_bytes c data (TStruct si ms) 1 [prior] pos) as [[r l] q] eqn:E1.
        assert (Er : r = ROk /\ q = p /\ v = match l with [x] => x | _ => prior end).
        { destruct l as [|? [|]]; injection E as -> <- ->; auto. }
        destruct Er as (-> & -> & ->).
        pose proof (des_bytes_local (TStruct si ms) [prior] pos l p Hp Hp' E1 Hag) as L.
        unfold lres in *. cbn [length] in L. destruct (_ <=? _)%nat.
        * rewrite L. now destruct l as [|? [|]].
        * destruct (des_bytes c data' (TStruct si ms) 1 [prior] pos) as [[r' l'] q'].
          cbn [fst] in L. subst r'. now destruct l' as [|? [|]].
      + destruct prior; try discriminate. cbn [as_seq wt] in *.
        cbn [wf] in Hw. rewrite !andb_true_iff in Hw. destruct Hw as [[_ Hw] _].
        cbn [tall] in Hf. apply andb_true_iff in Hf as [_ Hf].
        cbn [tallP] in Hcp. destruct Hcp as [_ Hcp]. apply tallP_list in Hcp.
        destruct (des_many (des_ty G c data rec) ms l pos) as [[r l'] q] eqn:E1.
        cbn [seq_res] in E. injection E as -> <- ->. apply seq_lres.
        rewrite forallb_forall in Hw, Hf. rewrite Forall_forall in H, Hcp.
        eapply des_many_local; eauto; rewrite Forall_forall; intros m Hin.
        * apply bytes_f_safe; auto.
        * apply H; auto.
    - cbn [des_ty] in *. eapply Hloc; eauto.
    - (* array *)
      destruct prior; try discriminate. cbn [wt] in Hpr. apply andb_true_iff in Hpr as [Hn Hpr].
      cbn [des_ty as_seq] in *. cbn [wf] in Hw. apply andb_true_iff in Hw as [_ Hw].
      cbn [tall tallP] in *. apply andb_true_iff in Hf as [_ Hf]. destruct Hcp as [_ Hcp].
      eapply des_elems_local; eauto. now apply bytes_f_safe.
    - (* tuple *)
      destruct prior; try discriminate. cbn [wt] in Hpr. cbn [des_ty as_seq] in *. cbn [wf] in Hw.
      cbn [tall tallP] in *. apply andb_true_iff in Hf as [_ Hf]. destruct Hcp as [_ Hcp].
      apply tallP_list in Hcp.
      destruct (des_many (des_ty G c data rec) ts l pos) as [[r l'] q] eqn:E1.
      cbn [seq_res] in E. injection E as -> <- ->. apply seq_lres.
      rewrite forallb_forall in Hw, Hf. rewrite Forall_forall in H, Hcp.
      eapply des_many_local; eauto; rewrite Forall_forall; intros m Hin.
      * apply bytes_f_safe; auto.
      * apply H; auto.
    - (* vec *)
      destruct prior; try discriminate. cbn [wt] in Hpr. cbn [des_ty as_seq] in *.
      cbn [wf] in Hw. apply andb_true_iff in Hw as [Hs Hw]. apply (wfsz_sz_of c _ Hds) in Hs.
      cbn [tall tallP] in *. apply andb_true_iff in Hf as [_ Hf]. destruct Hcp as [_ Hcp].
      pose proof (bytes_f_safe t Hw Hcp) as St. specialize (IHt Hw Hf Hcp).
      assert (L : forall (HE : match des_size c data (sz_of c s) pos with
            | (ROk, n, pos') =>
                match vec_resize G c t n l with
                | (ROk, l) => des_elems c data (as_bytes c t && cg) (des_ty G c data rec t) t l pos'
                | (r, l) => (r, VSeq l, pos')
                end
            | (r, _, pos') => (r, VSeq l, pos')
            end = (ROk, v, p)),
        lres v p match des_size c data' (sz_of c s) pos with
            | (ROk, n, pos') =>
                match vec_resize G c t n l with
                | (ROk, l) => des_elems c data' (as_bytes c t && cg) (des_ty G c data' rec' t) t l pos'
                | (r, l) => (r, VSeq l, pos')
                end
            | (r, _, pos') => (r, VSeq l, pos')
            end).
      { intro HE. destruct (des_size c data (sz_of c s) pos) as [[r n] p1] eqn:E1.
        destruct r; try discriminate.
        pose proof (des_size_safe c _ Hs data pos Hsm Hp) as S. cbn beta in S. rewrite E1 in S.
        destruct (vec_resize G c t n l) as [r l'] eqn:Ev. destruct r; try discriminate.
        pose proof (vec_resize_wt G c true true HG t n l ROk l' Hw Hpr Ev) as (V1 & _ & _).
        assert (P : (p1 <= p <= length data)%nat).
        { assert (Hb : as_bytes c t && cg = true -> bs t = true)
            by (intro Hb; apply andb_true_iff in Hb as [Hb _]; eapply as_bytes_bs; eauto).
          pose proof (des_elems_safe G c data true true Hsm (as_bytes c t && cg) _ t l' p1 Hw
            (flagged_true t) Hb St ltac:(lia) V1) as S'. rewrite HE in S'. destruct v; tauto. }
        destruct (nlocal_lres _ (VSeq l) pos n p1 (des_size_local c _ Hs) Hp Hp' E1
           ltac:(eapply agree_sub; eauto; lia)) as [L _]. cbn beta in L.
        destruct (des_size c data' (sz_of c s) pos) as [[r' n'] p'].
        destruct r'; [destruct L as (-> & -> & L)|destruct L as [L1 L]..];
          try (apply lres_out; [lia|assumption]).
        rewrite Ev. eapply des_elems_local; eauto; try lia. eapply agree_sub; eauto; lia. }
      destruct (sz_of c s); [|exact (L E)..].
      eapply des_elems_local; eauto.
    - (* assoc *)
      cbn [des_ty] in *.
      cbn [wf] in Hw. apply andb_true_iff in Hw as [Hs Hw]. apply (wfsz_sz_of c _ Hds) in Hs.
      cbn [tall tallP] in *. apply andb_true_iff in Hf as [_ Hf]. destruct Hcp as [Hk Hcp].
      pose proof (bytes_f_safe t Hw Hcp) as St. specialize (IHt Hw Hf Hcp).
      assert (L1 : forall n p1, (pos <= p1 <= length data)%nat -> (p1 <= length data')%nat ->
        seq_res (des_assoc (des_ty G c data rec t) (assoc_insert k) (dflt G t) n [] p1) = (ROk, v, p) ->
        lres v p (seq_res (des_assoc (des_ty G c data' rec' t) (assoc_insert k) (dflt G t) n [] p1))).
      { intros n p1 Q1 Q2 HE.
        destruct (des_assoc (des_ty G c data rec t) _ _ _ _ _) as [[r l] q] eqn:E1.
        cbn [seq_res] in HE. injection HE as -> <- ->. apply seq_lres.
        eapply (des_assoc_local (des_ty G c data rec t)); eauto; [now apply wt_dflt|lia|].
        eapply agree_sub; eauto; lia. }
      assert (L : forall (HE : match des_size c data (sz_of c s) pos with
        | (ROk, n, pos') =>
            seq_res (des_assoc (des_ty G c data rec t) (assoc_insert k) (dflt G t) (N.to_nat n) [] pos')
        | (r, _, pos') => (r, prior, pos') end = (ROk, v, p)),
        lres v p match des_size c data' (sz_of c s) pos with
        | (ROk, n, pos') =>
            seq_res (des_assoc (des_ty G c data' rec' t) (assoc_insert k) (dflt G t) (N.to_nat n) [] pos')
        | (r, _, pos') => (r, prior, pos') end).
      { intro HE. destruct (des_size c data (sz_of c s) pos) as [[r n] p1] eqn:E1.
        destruct r; try discriminate.
        pose proof (des_size_safe c _ Hs data pos Hsm Hp) as S. cbn beta in S. rewrite E1 in S.
        assert (P : (p1 <= p)%nat).
        { pose proof (des_assoc_safe G data true true (des_ty G c data rec t) s k t (dflt G t) Hk St
            (wt_dflt G t HG Hw) (N.to_nat n) [] p1 ltac:(lia) eq_refl) as S'.
          destruct (des_assoc (des_ty G c data rec t) _ _ _ _ _) as [[r l] q].
          cbn [seq_res] in HE. injection HE as -> <- ->. lia. }
        destruct (nlocal_lres _ prior pos n p1 (des_size_local c _ Hs) Hp Hp' E1
           ltac:(eapply agree_sub; eauto; lia)) as [L _]. cbn beta in L.
        destruct (des_size c data' (sz_of c s) pos) as [[r' n'] p'].
        destruct r'; [destruct L as (-> & -> & L)|destruct L as [L2 L]..];
          try (apply lres_out; [lia|assumption]).
        apply L1; auto. lia. }
      destruct (sz_of c s); [|exact (L E)..].
      apply L1; auto.
    - (* opt *)
      cbn [des_ty wf] in *. cbn [tall tallP] in *. apply andb_true_iff in Hf as [_ Hf].
      destruct Hcp as [_ Hcp]. unfold des_flag in *. specialize (IHt Hw Hf Hcp).
      pose proof (bytes_f_safe t Hw Hcp) as St.
      destruct (des_scalar c data 1 0 pos) as [[r n] p1] eqn:E1. destruct r; try discriminate.
      pose proof (des_scalar_safe c 1 0 data pos Hsm Hp) as S. cbn beta in S. rewrite E1 in S.
      assert (Hcur : forall x, opt_cur prior = Some x -> wt G x t = true).
      { intros x Hx. destruct prior; try discriminate. injection Hx as <-. exact Hpr. }
      assert (P : (p1 <= p)%nat).
      { destruct n as [|n]; [injection E as _ <-; lia|].
        pose proof (des_inplace_safe G data true true dc (des_ty G c data rec t) VSome (opt_cur prior)
          (dflt G t) prior p1 (TOpt dc t) t St (wt_dflt G t HG Hw) Hcur Hpr (fun x h => h) ltac:(lia)) as S'.
        rewrite E in S'. cbn [safe_out] in S'. lia. }
      destruct (nlocal_lres _ prior pos n p1 (des_scalar_local c 1 0) Hp Hp' E1
         ltac:(eapply agree_sub; eauto; lia)) as [L _]. cbn beta in L.
      destruct (des_scalar c data' 1 0 pos) as [[r' n'] p'].
      destruct r'; [destruct L as (-> & -> & L)|destruct L as [L2 L]..];
        try (apply lres_out; [lia|assumption]).
      destruct n as [|n].
      + injection E as <- <-. unfold lres. destruct (Nat.leb_spec p1 (length data')); [reflexivity|lia].
      + eapply des_inplace_local with (t := t); eauto; try lia; [now apply wt_dflt|].
        eapply agree_sub; eauto; lia.
    - (* optptr *)
      cbn [des_ty wf] in *. cbn [tall tallP] in *. apply andb_true_iff in Hf as [_ Hf].
      destruct Hcp as [_ Hcp]. unfold des_flag in *. specialize (IHt Hw Hf Hcp).
      pose proof (bytes_f_safe t Hw Hcp) as St.
      destruct (des_scalar c data 1 0 pos) as [[r n] p1] eqn:E1. destruct r; try discriminate.
      pose proof (des_scalar_safe c 1 0 data pos Hsm Hp) as S. cbn beta in S. rewrite E1 in S.
      assert (P : (p1 <= p)%nat).
      { destruct n as [|n]; [injection E as _ <-; lia|].
        pose proof (des_ptr_safe G data true true (des_ty G c data rec t)
          (dflt G t) prior p1 (TOptPtr t) t St (wt_dflt G t HG Hw) Hpr (fun x h => h) ltac:(lia)) as S'.
        rewrite E in S'. cbn [safe_out] in S'. lia. }
      destruct (nlocal_lres _ prior pos n p1 (des_scalar_local c 1 0) Hp Hp' E1
         ltac:(eapply agree_sub; eauto; lia)) as [L _]. cbn beta in L.
      destruct (des_scalar c data' 1 0 pos) as [[r' n'] p'].
      destruct r'; [destruct L as (-> & -> & L)|destruct L as [L2 L]..];
        try (apply lres_out; [lia|assumption]).
      destruct n as [|n].
      + injection E as <- <-. unfold lres. destruct (Nat.leb_spec p1 (length data')); [reflexivity|lia].
      + eapply des_ptr_local with (t := t); eauto; try lia; [now apply wt_dflt|].
        eapply agree_sub; eauto; lia.
    - (* ptr *)
      cbn [des_ty wf] in *. cbn [tall tallP] in *. apply andb_true_iff in Hf as [_ Hf].
      destruct Hcp as [_ Hcp].
      eapply des_ptr_local with (t := t); eauto. now apply wt_dflt.
    - (* variant *)
      rewrite des_variant_eq in *.
      cbn [tall tallP] in *. apply andb_true_iff in Hf as [_ Hf].
      destruct Hcp as [_ Hcp]. apply tallP_list in Hcp.
      cbn [wf] in Hw. rewrite !andb_true_iff in Hw. destruct Hw as [[[[Hl Hm] Hd] Hi] Hw].
      destruct (des_id c data ik pos) as [[r n] p1] eqn:E1. destruct r; try discriminate.
      pose proof (des_id_safe c ik data pos Hsm Hp) as S. cbn beta in S. rewrite E1 in S.
      destruct (find_id meta n) as [i|] eqn:Ef; [|discriminate].
      destruct (nth_error alts i) as [t'|] eqn:Ea; [|discriminate].
      set (dc := match nth_error meta i with Some (_, b) => b | None => true end) in *.
      pose proof (nth_error_In _ _ Ea) as Hin.
      rewrite forallb_forall in Hw, Hf. rewrite Forall_forall in H, Hcp.
      specialize (H t' Hin (Hw _ Hin) (Hf _ Hin) (Hcp _ Hin)).
      pose proof (bytes_f_safe t' (Hw _ Hin) (Hcp _ Hin)) as St.
      assert (Hcur : forall x, active i prior = Some x -> wt G x t' = true).
      { intros x Hx. destruct prior; try discriminate. cbn [active] in Hx.
        destruct (Nat.eqb_spec i i0) as [->|]; [|discriminate]. injection Hx as <-.
        cbn [wt] in Hpr. now rewrite Ea in Hpr. }
      assert (Hwr : forall x, wt G x t' = true -> wt G (VAlt i x) (TVariant ik meta alts) = true)
        by (intros x Hx; cbn [wt]; now rewrite Ea).
      assert (P : (p1 <= p)%nat).
      { pose proof (des_inplace_safe G data true true dc (des_ty G c data rec t') (VAlt i) (active i prior)
          (dflt G t') prior p1 (TVariant ik meta alts) t' St (wt_dflt G t' HG (Hw _ Hin)) Hcur Hpr Hwr ltac:(lia)) as S'.
        rewrite E in S'. cbn [safe_out] in S'. lia. }
      destruct (nlocal_lres _ prior pos n p1 (des_id_local c ik) Hp Hp' E1
         ltac:(eapply agree_sub; eauto; lia)) as [L _]. cbn beta in L.
      destruct (des_id c data' ik pos) as [[r' n'] p'].
      destruct r'; [destruct L as (-> & -> & L)|destruct L as [L2 L]..];
        try (apply lres_out; [lia|assumption]).
      rewrite Ef, Ea. fold dc.
      eapply des_inplace_local with (t := t'); eauto; try lia; [apply wt_dflt; auto|].
      eapply agree_sub; eauto; lia.
    - (* bitset *)
      cbn [des_ty] in *. unfold des_bitset in *. rewrite remaining_small in * by assumption.
      destruct (N.ltb_spec (N.of_nat (length data - pos)) (N.of_nat (bitset_bytes n))); [discriminate|].
      rewrite load_some in E by lia. injection E as <- <-. unfold lres.
      destruct (N.ltb_spec (N.of_nat (length data' - pos)) (N.of_nat (bitset_bytes n)));
        destruct (Nat.leb_spec (pos + bitset_bytes n) (length data')); try lia; [reflexivity|].
      rewrite load_some by lia.
      rewrite <- (agree_window data data' pos (pos + bitset_bytes n)); try lia; [reflexivity|].
      eapply agree_sub; eauto; lia.
    - (* view *)
      cbn [tall] in Hf. apply andb_true_iff in Hf as [Hf _].
      destruct k as [s|n|]; cbn [des_ty delimited] in *; [| |discriminate].
      + cbn [wf] in Hw. apply (wfsz_sz_of c _ Hds) in Hw.
        assert (L : forall (HE : match des_size c data (sz_of c s) pos with
          | (ROk, n, p) =>
            if remaining data p <? n then (RErr result_out_of_range, prior, p)
                else match load data p (N.to_nat n) with
                     | Some e => (ROk, VBytes e, (p + N.to_nat n)%nat)
                     | None => (RUB, prior, p)
                     end
          | (r, _, p) => (r, prior, p) end = (ROk, v, p)),
          lres v p match des_size c data' (sz_of c s) pos with
          | (ROk, n, p) =>
            if remaining data' p <? n then (RErr result_out_of_range, prior, p)
                else match load data' p (N.to_nat n) with
                     | Some e => (ROk, VBytes e, (p + N.to_nat n)%nat)
                     | None => (RUB, prior, p)
                     end
          | (r, _, p) => (r, prior, p) end).
        { intro HE. destruct (des_size c data (sz_of c s) pos) as [[r n] p1] eqn:E1.
          destruct r; try discriminate.
          pose proof (des_size_safe c _ Hw data pos Hsm Hp) as S. cbn beta in S. rewrite E1 in S.
          rewrite remaining_small in HE by (assumption || lia).
          destruct (N.ltb_spec (N.of_nat (length data - p1)) n) as [|Hn]; [discriminate|].
          rewrite load_some in HE by lia. injection HE as <- <-.
          destruct (nlocal_lres _ prior pos n p1 (des_size_local c _ Hw) Hp Hp' E1
            ltac:(eapply agree_sub; eauto; lia)) as [L _]. cbn beta in L.
          destruct (des_size c data' (sz_of c s) pos) as [[r' n'] p'].
          destruct r'; [destruct L as (-> & -> & L)|destruct L as [L2 L]..];
            try (apply lres_out; [lia|assumption]).
          rewrite remaining_small by assumption. unfold lres.
          destruct (N.ltb_spec (N.of_nat (length data' - p1)) n);
            destruct (Nat.leb_spec (p1 + N.to_nat n) (length data')); try lia; [reflexivity|].
          rewrite load_some by lia.
          rewrite <- (agree_window data data' p1 (p1 + N.to_nat n)); try lia; [reflexivity|].
          eapply agree_sub; eauto; lia. }
        destruct (sz_of c s); [discriminate|exact (L E)..].
      + rewrite remaining_small in * by assumption.
        destruct (N.ltb_spec (N.of_nat (length data - pos)) (N.of_nat n)); [discriminate|].
        rewrite load_some in E by lia. injection E as <- <-. unfold lres.
        destruct (N.ltb_spec (N.of_nat (length data' - pos)) (N.of_nat n));
          destruct (Nat.leb_spec (pos + n) (length data')); try lia; [reflexivity|].
        rewrite load_some by lia.
        rewrite <- (agree_window data data' pos (pos + n)); try lia; [reflexivity|].
        eapply agree_sub; eauto; lia.
    - (* span *)
      destruct prior; try discriminate. cbn [wt] in Hpr. cbn [des_ty as_seq] in *.
      cbn [wf] in Hw. apply andb_true_iff in Hw as [Hs Hw]. apply (wfsz_sz_of c _ Hds) in Hs.
      cbn [tall tallP] in *. apply andb_true_iff in Hf as [_ Hf]. destruct Hcp as [_ Hcp].
      pose proof (bytes_f_safe t Hw Hcp) as St. specialize (IHt Hw Hf Hcp).
      assert (L : forall (HE : match des_size c data (sz_of c s) pos with
            | (ROk, n, pos') =>
                if N.of_nat (length l) <? n
                then (RErr result_out_of_range, VSeq l, pos')
                else des_elems c data (as_bytes c t) (des_ty G c data rec t) t
                       (firstn (N.to_nat n) l) pos'
            | (r, _, pos') => (r, VSeq l, pos')
            end = (ROk, v, p)),
        lres v p match des_size c data' (sz_of c s) pos with
            | (ROk, n, pos') =>
                if N.of_nat (length l) <? n
                then (RErr result_out_of_range, VSeq l, pos')
                else des_elems c data' (as_bytes c t) (des_ty G c data' rec' t) t
                       (firstn (N.to_nat n) l) pos'
            | (r, _, pos') => (r, VSeq l, pos')
            end).
      { intro HE. destruct (des_size c data (sz_of c s) pos) as [[r n] p1] eqn:E1.
        destruct r; try discriminate.
        pose proof (des_size_safe c _ Hs data pos Hsm Hp) as S. cbn beta in S. rewrite E1 in S.
        destruct (N.of_nat (length l) <? n) eqn:Ev; [discriminate|].
        assert (V1 : forallb (fun x => wt G x t) (firstn (N.to_nat n) l) = true).
        { rewrite forallb_forall in *. intros x Hin. apply Hpr.
          rewrite <- (firstn_skipn (N.to_nat n) l). apply in_or_app. now left. }
        assert (P : (p1 <= p <= length data)%nat).
        { pose proof (des_elems_safe G c data true true Hsm (as_bytes c t) _ t _ p1 Hw
            (flagged_true t) (as_bytes_bs c t) St ltac:(lia) V1) as S'. rewrite HE in S'. destruct v; tauto. }
        destruct (nlocal_lres _ (VSeq l) pos n p1 (des_size_local c _ Hs) Hp Hp' E1
           ltac:(eapply agree_sub; eauto; lia)) as [L _]. cbn beta in L.
        destruct (des_size c data' (sz_of c s) pos) as [[r' n'] p'].
        destruct r'; [destruct L as (-> & -> & L)|destruct L as [L1 L]..];
          try (apply lres_out; [lia|assumption]).
        rewrite Ev. eapply des_elems_local; eauto; try lia. eapply agree_sub; eauto; lia. }
      destruct (sz_of c s); [|exact (L E)..].
      eapply des_elems_local; eauto.
  Qed.
End Local.

Section LocalRec.
  Variables (G : tenv) (c : cfg) (data data' : list byte).
  Hypothesis (HG : wf_env G) (Hds : wfsz (Some (dsize c)) = true).
  Hypothesis (Hsm : small data) (Hsm' : small data').
  Hypothesis (Hcmp : tallP_env (cmp_ok G) G).
  Hypothesis (Hdl : tall_env (delimited c) G).

  Lemma des_rec_local fuel k :
    local_f G data data' (TRec k) (des_rec G c data fuel k) (des_rec G c data' fuel k).
  Proof.
    revert k. induction fuel as [|f IH]; intros k prior pos v p Hp Hp' Hpr E Hag;
      cbn [des_rec] in *; [discriminate|].
    destruct prior; try discriminate. cbn [wt as_seq] in *.
    destruct (des_many (des_ty G c data (des_rec G c data f)) (t_mems G k) l pos) as [[r l'] q] eqn:E1.
    cbn [seq_res] in E. injection E as -> <- ->. apply seq_lres.
    destruct (HG k) as [Hw _]. specialize (Hdl k) as Hf. specialize (Hcmp k) as Hcp.
    rewrite forallb_forall in Hw, Hf. rewrite Forall_forall in Hcp.
    assert (SF : forall k0, safe_f G data true true (TRec k0) (des_rec G c data f k0))
      by (intro k0; apply des_rec_safe; auto using flagged_env_true).
    apply (des_many_local G c data data' _ _ (t_mems G k)) with (6 := E1); auto; rewrite Forall_forall; intros m Hin.
    - apply bytes_f_safe; auto.
    - apply des_ty_local; auto.
  Qed.

  Lemma des_local fuel t :
    wf G t = true -> tall (delimited c) t = true -> tallP (cmp_ok G) t ->
    local_f G data data' t (des G c data fuel t) (des G c data' fuel t).
  Proof.
    intros. unfold des. apply des_ty_local; auto using des_rec_local.
    intro k. apply des_rec_safe; auto using flagged_env_true.
  Qed.
End LocalRec.
