(** A refused allocation is never swallowed (Model/Heap.v): the call that asked for it ends with the
    exception, and nothing is asked for afterwards. *)

From Coq Require Import List NArith ZArith Lia Bool Arith.
From Coq Require Import ZifyBool ZifyNat ZifyN.
From Verif Require Import Base.Bytes Model.Types Model.Machine Model.Varint Model.Out Model.In Model.Heap.
Import ListNotations.
Local Open Scope N_scope.

Section Loud.
  Variable ok : nat -> bool.

  (** All allocations between two states succeeded. *)
  Definition granted (a b : nat) : Prop := forall n, (a <= n < b)%nat -> ok n = true.

  (** [r] is the outcome of a piece of code that moved the allocation counter from [a] to [b]. *)
  Definition loud (r : res) (a b : nat) : Prop :=
    (a <= b)%nat /\ (granted a b \/ r = RThrow /\ exists n, b = S n /\ (a <= n)%nat /\ granted a n /\ ok n = false).

  Lemma loud_refl r a : loud r a a.
  Proof. split; [lia|]. left. intros n Hn. lia. Qed.

  Lemma loud_trans r a b d : loud ROk a b -> loud r b d -> loud r a d.
  Proof.
    intros [L1 [G1|[E _]]] [L2 G2]; [|discriminate]. split; [lia|].
    destruct G2 as [G2|(-> & n & -> & Hn & G2 & Hf)].
    - left. intros m Hm. destruct (Nat.lt_ge_cases m b); [apply G1|apply G2]; lia.
    - right. split; [reflexivity|]. exists n. repeat split; [lia| |exact Hf].
      intros m Hm. destruct (Nat.lt_ge_cases m b); [apply G1|apply G2]; lia.
  Qed.

  Lemma granted_trans a b d : granted a b -> granted b d -> granted a d.
  Proof. intros G1 G2 m Hm. destruct (Nat.lt_ge_cases m b); [apply G1|apply G2]; lia. Qed.

  Lemma free_next b H : hnext (free b H) = hnext H.
  Proof. unfold free. now destruct (remove1 b (hlive H)). Qed.

  Lemma free_all_next bs : forall H, hnext (free_all bs H) = hnext H.
  Proof. induction bs as [|b bs IH]; intro H; [reflexivity|]. cbn [free_all]. now rewrite IH, free_next. Qed.

  Lemma destroy_next h H : hnext (destroy h H) = hnext H.
  Proof. apply free_all_next. Qed.

  Lemma alloc_loud H : match alloc ok H with
    | (Some _, H') => loud ROk (hnext H) (hnext H')
    | (None, H') => loud RThrow (hnext H) (hnext H')
    end.
  Proof.
    unfold alloc. destruct (ok (hnext H)) eqn:E; cbn [hnext]; (split; [lia|]).
    - left. intros n Hn. now replace n with (hnext H) by lia.
    - right. split; [reflexivity|]. exists (hnext H). repeat split; [lia| |exact E]. intros n Hn. lia.
  Qed.

  Lemma alloc_n_loud n : forall H, match alloc_n ok n H with
    | (Some _, H') => loud ROk (hnext H) (hnext H')
    | (None, H') => loud RThrow (hnext H) (hnext H')
    end.
  Proof.
    induction n as [|n IH]; intro H; cbn [alloc_n]; [apply loud_refl|].
    pose proof (alloc_loud H) as A. destruct (alloc ok H) as [[b|] H1]; [|exact A].
    specialize (IH H1). destruct (alloc_n ok n H1) as [[bs|] H2]; rewrite ?free_next; eapply loud_trans; eauto.
  Qed.

  Definition loud_f (f : hval -> nat -> heap -> hres) : Prop :=
    forall h pos H, match f h pos H with (r, _, _, H') => loud r (hnext H) (hnext H') end.


  Lemma hdes_many_loud hf ms : Forall (fun m => loud_f (hf m)) ms ->
    forall l pos H, match hdes_many hf ms l pos H with (r, _, _, H') => loud r (hnext H) (hnext H') end.
  Proof.
    induction 1 as [|m ms Hm _ IH]; intros l pos H; cbn [hdes_many]; [apply loud_refl|].
    pose proof (Hm (match l with x :: _ => x | [] => HNone end) pos H) as M. destruct (hf m _ pos H) as [[[r v] p] H1].
    destruct r; try exact M. specialize (IH (tl l) p H1).
    destruct (hdes_many hf ms (tl l) p H1) as [[[r2 vs] p2] H2]. eapply loud_trans; eauto.
  Qed.

  Lemma hdes_all_loud hf : loud_f hf ->
    forall l pos H, match hdes_all hf l pos H with (r, _, _, H') => loud r (hnext H) (hnext H') end.
  Proof.
    intro Hf. induction l as [|x l IH]; intros pos H; cbn [hdes_all]; [apply loud_refl|].
    pose proof (Hf x pos H) as M. destruct (hf x pos H) as [[[r v] p] H1].
    destruct r; try exact M. specialize (IH p H1).
    destruct (hdes_all hf l p H1) as [[[r2 vs] p2] H2]. eapply loud_trans; eauto.
  Qed.

  Lemma hdes_assoc_loud hf k d : loud_f hf -> forall n bs acc pos H,
    match hdes_assoc ok hf k d n bs acc pos H with (r, _, _, _, H') => loud r (hnext H) (hnext H') end.
  Proof.
    intro Hf. induction n as [|n IH]; intros bs acc pos H; cbn [hdes_assoc]; [apply loud_refl|].
    pose proof (Hf d pos H) as M. destruct (hf d pos H) as [[[r v] p] H1].
    destruct r; rewrite ?destroy_next; try exact M.
    destruct (_ && _).
    - specialize (IH bs acc p (destroy v H1)). rewrite ?destroy_next in IH.
      destruct (hdes_assoc _ _ _ _ _ _ _ _ _) as [[[[r bs'] l'] p'] H2]. eapply loud_trans; eauto.
    - pose proof (alloc_loud H1) as A. destruct (alloc ok H1) as [[b|] H2].
      + specialize (IH (b :: bs) (hplace k acc v) p H2).
        destruct (hdes_assoc _ _ _ _ _ _ _ _ _) as [[[[r bs'] l'] p'] H3].
        eapply loud_trans; [exact M|]. eapply loud_trans; eauto.
      + rewrite ?destroy_next. eapply loud_trans; eauto.
  Qed.

  Lemma hvec_resize_loud c t cg d n bs l H :
    match hvec_resize ok c t cg d n bs l H with (r, _, _, H') => loud r (hnext H) (hnext H') end.
  Proof.
    unfold hvec_resize. destruct (over_limit c t n); [apply loud_refl|].
    destruct (_ <=? _); [destruct cg; rewrite ?free_all_next; apply loud_refl|].
    destruct (can_alloc c _); [|apply loud_refl]. destruct cg.
    - pose proof (alloc_loud H) as A. destruct (alloc ok H) as [[b|] H1]; rewrite ?free_all_next; exact A.
    - pose proof (alloc_n_loud (N.to_nat n - length l) H) as A. destruct (alloc_n ok _ H) as [[b|] H1]; exact A.
  Qed.

  Lemma hdes_inplace_loud dc hf w cur d prior pos H : loud_f hf ->
    match hdes_inplace dc hf w cur d prior pos H with (r, _, _, H') => loud r (hnext H) (hnext H') end.
  Proof.
    intro Hf. unfold hdes_inplace. destruct dc.
    - destruct cur as [x|].
      + pose proof (Hf x pos H) as M. destruct (hf x pos H) as [[[r v] p] H1]. exact M.
      + pose proof (Hf d pos (destroy prior H)) as M. rewrite ?destroy_next in M.
        destruct (hf d pos _) as [[[r v] p] H1]. exact M.
    - pose proof (Hf d pos H) as M. destruct (hf d pos H) as [[[r v] p] H1].
      destruct r; rewrite ?destroy_next; exact M.
  Qed.

  Lemma hdes_ptr_loud sh hf d prior pos H : loud_f hf ->
    match hdes_ptr ok sh hf d prior pos H with (r, _, _, H') => loud r (hnext H) (hnext H') end.
  Proof.
    intro Hf. unfold hdes_ptr. pose proof (alloc_loud H) as A. destruct (alloc ok H) as [[b|] H1]; [|exact A].
    pose proof (Hf d pos H1) as M. destruct (hf d pos H1) as [[[r v] p] H2].
    destruct r; try (rewrite ?destroy_next; eapply loud_trans; eauto).
    destruct sh.
    - pose proof (alloc_loud H2) as A2. destruct (alloc ok H2) as [[b2|] H3]; rewrite ?destroy_next;
        (eapply loud_trans; [exact A|]); eapply loud_trans; eauto.
    - rewrite ?destroy_next. eapply loud_trans; eauto.
  Qed.

  Section Ty.
    Variables (G : tenv) (c : cfg) (data : list byte) (shared : ty -> bool).
    Variable hrec : nat -> hval -> nat -> heap -> hres.
    Hypothesis Hrec : forall k, loud_f (hrec k).

    Lemma hdes_elems_loud b hf t bs l pos H : loud_f hf ->
      match hdes_elems c data b hf t bs l pos H with (r, _, _, H') => loud r (hnext H) (hnext H') end.
    Proof.
      intro Hf. unfold hdes_elems. destruct b.
      - destruct (des_bytes _ _ _ _ _ _) as [[r vs] p]. apply loud_refl.
      - pose proof (hdes_all_loud hf Hf l pos H) as M. destruct (hdes_all hf l pos H) as [[[r v] p] H1]. exact M.
    Qed.

    Lemma hdes_ty_loud t : loud_f (hdes_ty ok G c data shared hrec t).
    Proof.
      induction t using ty_ind'; intros h pos H0; cbn [hdes_ty].
      - destruct (des_ty _ _ _ _ _ _ _) as [[r v] p]. apply loud_refl.
      - destruct (des_ty _ _ _ _ _ _ _) as [[r v] p]. apply loud_refl.
      - destruct (des_ty _ _ _ _ _ _ _) as [[r v] p]. apply loud_refl.
      - destruct (des_ty _ _ _ _ _ _ _) as [[r v] p]. apply loud_refl.
      - destruct (_ && _); [apply loud_refl|]. destruct (as_bytes c _).
        + destruct (des_bytes _ _ _ _ _ _) as [[r [|x [|]]] p]; apply loud_refl.
        + pose proof (hdes_many_loud _ ms H (has h) pos H0) as M.
          destruct (hdes_many _ _ _ _ _) as [[[r v] p] H1]. exact M.
      - apply Hrec.
      - now apply hdes_elems_loud.
      - pose proof (hdes_many_loud _ ts H (has h) pos H0) as M.
        destruct (hdes_many _ _ _ _ _) as [[[r v] p] H1]. exact M.
      - assert (E : forall sz, match
          match des_size c data sz pos with
          | (ROk, n, pos') =>
              match hvec_resize ok c t cg (bare (dflt G t)) n (blocks h) (has h) H0 with
              | (ROk, bs, l, H') =>
                  hdes_elems c data (as_bytes c t && cg) (hdes_ty ok G c data shared hrec t) t bs l pos' H'
              | (r, bs, l, H') => (r, HSeq bs l, pos', H')
              end
          | (r, _, pos') => (r, h, pos', H0)
          end with (r, _, _, H') => loud r (hnext H0) (hnext H') end).
        { intro sz. destruct (des_size c data sz pos) as [[r n] p]. destruct r; try apply loud_refl.
          pose proof (hvec_resize_loud c t cg (bare (dflt G t)) n (blocks h) (has h) H0) as V.
          destruct (hvec_resize _ _ _ _ _ _ _ _ _) as [[[r bs] l] H1]. destruct r; try exact V.
          pose proof (hdes_elems_loud (as_bytes c t && cg) _ t bs l p H1 IHt) as M.
          destruct (hdes_elems _ _ _ _ _ _ _ _ _) as [[[r v] p'] H2]. eapply loud_trans; eauto. }
        destruct (sz_of c s); [now apply hdes_elems_loud|apply E..].
      - destruct (match sz_of c s with SzNone => _ | _ => _ end) as [[r n] p].
        destruct r; try apply loud_refl.
        pose proof (hdes_assoc_loud _ k (bare (dflt G t)) IHt (N.to_nat n) [] [] p (destroy h H0)) as M.
        rewrite ?destroy_next in M.
        destruct (hdes_assoc _ _ _ _ _ _ _ _ _) as [[[[r bs] l] p'] H1]. exact M.
      - destruct (des_flag c data pos) as [[r n] p]. destruct r; try apply loud_refl.
        destruct n; [rewrite ?destroy_next; apply loud_refl|]. now apply hdes_inplace_loud.
      - destruct (des_flag c data pos) as [[r n] p]. destruct r; try apply loud_refl.
        destruct n; [rewrite ?destroy_next; apply loud_refl|]. now apply hdes_ptr_loud.
      - now apply hdes_ptr_loud.
      - destruct (des_id c data ik pos) as [[r id] p]. destruct r; try apply loud_refl.
        destruct (find_id meta id) as [i|]; [|apply loud_refl]. cbv zeta.
        generalize (HAlt i) (hactive i h) (match nth_error meta i with Some (_, b) => b | None => true end).
        intros w a dc. revert i. induction H as [|t' l Ht' _ IH]; intros [|i]; try apply loud_refl.
        + now apply hdes_inplace_loud.
        + apply IH.
      - destruct (des_ty _ _ _ _ _ _ _) as [[r v] p]. apply loud_refl.
      - destruct (des_ty _ _ _ _ _ _ _) as [[r v] p]. apply loud_refl.
      - assert (E : forall sz, match
          match des_size c data sz pos with
          | (ROk, n, pos') =>
              if N.of_nat (length (has h)) <? n
              then (RErr result_out_of_range, h, pos', H0)
              else hdes_elems c data (as_bytes c t) (hdes_ty ok G c data shared hrec t) t []
                     (firstn (N.to_nat n) (has h)) pos' H0
          | (r, _, pos') => (r, h, pos', H0)
          end with (r, _, _, H') => loud r (hnext H0) (hnext H') end).
        { intro sz. destruct (des_size c data sz pos) as [[r n] p]. destruct r; try apply loud_refl.
          destruct (_ <? _); [apply loud_refl|]. now apply hdes_elems_loud. }
        destruct (sz_of c s); [now apply hdes_elems_loud|apply E..].
    Qed.
  End Ty.

  Lemma hdes_rec_loud G c data shared fuel : forall k, loud_f (hdes_rec ok G c data shared fuel k).
  Proof.
    induction fuel as [|f IH]; intros k h pos H; cbn [hdes_rec]; [apply loud_refl|].
    assert (HF : Forall (fun m => loud_f (hdes_ty ok G c data shared (hdes_rec ok G c data shared f) m)) (t_mems G k)).
    { rewrite Forall_forall. intros m _. now apply hdes_ty_loud. }
    pose proof (hdes_many_loud _ _ HF (has h) pos H) as M.
    destruct (hdes_many _ _ _ _ _) as [[[r v] p] H1]. exact M.
  Qed.

  Lemma hin_call_loud G c data shared fuel ts priors pos H :
    match hin_call ok G c data shared fuel ts priors pos H with (r, _, _, H') => loud r (hnext H) (hnext H') end.
  Proof.
    apply hdes_many_loud. rewrite Forall_forall. intros m _. apply hdes_ty_loud. apply hdes_rec_loud.
  Qed.
End Loud.
