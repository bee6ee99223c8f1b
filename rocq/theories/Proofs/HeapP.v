(** Ownership of heap memory while reading (Model/Heap.v): nothing is lost, nothing is freed twice, whichever
    allocation is refused; without refusals the values are those of Model/In.v. *)

From Coq Require Import List NArith ZArith Lia Bool Arith.
From Coq Require Import ZifyBool ZifyNat ZifyN.
From Verif Require Import Base.Bytes Model.Types Model.Machine Model.Varint Model.Out Model.In Model.Heap
  Spec.Leb128 Spec.Wire Proofs.VarintP Proofs.OutP Proofs.InBase Proofs.InSafe.
Import ListNotations.
Local Open Scope N_scope.

Definition cnt (b : nat) (l : list nat) : nat := count_occ Nat.eq_dec l b.

Lemma cnt_app b l m : cnt b (l ++ m) = (cnt b l + cnt b m)%nat.
Proof. apply count_occ_app. Qed.

Lemma cnt_cons b x l : cnt b (x :: l) = ((if (x =? b)%nat then 1 else 0) + cnt b l)%nat.
Proof. unfold cnt. cbn [count_occ]. destruct (Nat.eq_dec x b), (Nat.eqb_spec x b); try congruence; reflexivity. Qed.

Lemma cnt_nil b : cnt b [] = O. Proof. reflexivity. Qed.

(** Every live block is live once, and has been allocated. *)
Definition heap_ok (H : heap) : Prop :=
  forall b, (cnt b (hlive H) <= if (b <? hnext H)%nat then 1 else 0)%nat.

(** The live blocks are [o] and those of the frame [F]. *)
Definition good (H : heap) (o : list nat) (F : nat -> nat) : Prop :=
  heap_ok H /\ forall b, cnt b (hlive H) = (cnt b o + F b)%nat.

Lemma good_frame H o o' F :
  good H (o ++ o') F <-> good H o (fun b => (cnt b o' + F b)%nat).
Proof.
  unfold good. split; intros [H1 H2]; (split; [exact H1|]); intro b; rewrite H2, ?cnt_app; lia.
Qed.

Lemma good_all H o F : good H o F -> good H [] (fun b => (cnt b o + F b)%nat).
Proof. intros [H1 H2]. split; [exact H1|]. intro b. rewrite H2. reflexivity. Qed.

Lemma good_perm H o o' F : (forall b, cnt b o = cnt b o') -> good H o F -> good H o' F.
Proof. intros E [H1 H2]. split; [exact H1|]. intro b. now rewrite H2, E. Qed.

Ltac perm := let b := fresh "b" in intro b; cbn [app]; rewrite ?cnt_app, ?cnt_cons, ?cnt_nil; rewrite ?cnt_app; lia.

Lemma remove1_cnt b l : (0 < cnt b l)%nat ->
  exists m, remove1 b l = Some m /\ forall x, cnt x l = ((if (b =? x)%nat then 1 else 0) + cnt x m)%nat.
Proof.
  induction l as [|y l IH]; [cbn; lia|]. rewrite cnt_cons. cbn [remove1].
  destruct (Nat.eqb_spec y b) as [->|Hn]; intro Hc.
  - exists l. split; [reflexivity|]. intro x. apply cnt_cons.
  - destruct (IH ltac:(lia)) as (m & -> & E). exists (y :: m). split; [reflexivity|].
    intro x. rewrite !cnt_cons, E. lia.
Qed.

Lemma free_good b H o F : good H (b :: o) F ->
  good (free b H) o F /\ hbad (free b H) = hbad H /\ hnext (free b H) = hnext H.
Proof.
  intros [H1 H2]. unfold free.
  destruct (remove1_cnt b (hlive H)) as (m & -> & E).
  { rewrite H2, cnt_cons, Nat.eqb_refl. lia. }
  cbn [hbad hnext]. split; [|auto]. split; intro x; cbn [hlive hnext].
  - specialize (H1 x). rewrite E in H1. lia.
  - specialize (H2 x). rewrite E, cnt_cons in H2. lia.
Qed.

Lemma free_all_good bs : forall H o F, good H (bs ++ o) F ->
  good (free_all bs H) o F /\ hbad (free_all bs H) = hbad H /\ hnext (free_all bs H) = hnext H.
Proof.
  induction bs as [|b bs IH]; intros H o F HG; [cbn; auto|].
  cbn [app free_all] in *. apply free_good in HG as (G1 & G2 & G3).
  apply IH in G1 as (G4 & G5 & G6). split; [exact G4|]. split; congruence.
Qed.

Lemma destroy_good h H o F : good H (own h ++ o) F ->
  good (destroy h H) o F /\ hbad (destroy h H) = hbad H /\ hnext (destroy h H) = hnext H.
Proof. apply free_all_good. Qed.

Section Alloc.
  Variable ok : nat -> bool.

  (** An allocation made between the two states was refused. *)
  Definition refused (H H' : heap) : Prop :=
    exists k, (hnext H <= k < hnext H')%nat /\ ok k = false.

  Lemma refused_l H1 H2 H3 : (hnext H1 <= hnext H2)%nat -> refused H2 H3 -> refused H1 H3.
  Proof. intros L (k & Hk & E). exists k. split; [lia|exact E]. Qed.

  Lemma refused_r H1 H2 H3 : (hnext H2 <= hnext H3)%nat -> refused H1 H2 -> refused H1 H3.
  Proof. intros L (k & Hk & E). exists k. split; [lia|exact E]. Qed.

  Lemma alloc_good H o F : good H o F ->
    match alloc ok H with
    | (Some b, H') => good H' (b :: o) F /\ hbad H' = hbad H /\ (hnext H <= hnext H')%nat
    | (None, H') => good H' o F /\ hbad H' = hbad H /\ (hnext H <= hnext H')%nat /\ refused H H'
    end.
  Proof.
    intros [H1 H2]. unfold alloc. destruct (ok (hnext H)) eqn:E; cbn [hbad hnext];
      (split; [split; intro b; cbn [hlive hnext]|split; [auto|]]); try lia.
    - specialize (H1 b). rewrite cnt_cons.
      destruct (Nat.eqb_spec (hnext H) b); destruct (Nat.ltb_spec b (S (hnext H)));
        destruct (Nat.ltb_spec b (hnext H)); lia.
    - rewrite !cnt_cons, H2. lia.
    - specialize (H1 b). destruct (Nat.ltb_spec b (S (hnext H)));
        destruct (Nat.ltb_spec b (hnext H)); lia.
    - apply H2.
    - split; [lia|]. exists (hnext H). cbn [hnext]. split; [lia|exact E].
  Qed.

  Lemma alloc_n_good n : forall H o F, good H o F ->
    match alloc_n ok n H with
    | (Some bs, H') => good H' (bs ++ o) F /\ hbad H' = hbad H /\ (hnext H <= hnext H')%nat /\ length bs = n
    | (None, H') => good H' o F /\ hbad H' = hbad H /\ (hnext H <= hnext H')%nat /\ refused H H'
    end.
  Proof.
    induction n as [|n IH]; intros H o F HG; cbn [alloc_n]; [auto|].
    pose proof (alloc_good H o F HG) as A. destruct (alloc ok H) as [[b|] H1]; [|exact A].
    destruct A as (A1 & A2 & A3). specialize (IH H1 (b :: o) F A1).
    destruct (alloc_n ok n H1) as [[bs|] H2].
    - destruct IH as (I1 & I2 & I3 & I4). split; [|split; [congruence|split; [lia|cbn; lia]]].
      eapply good_perm; [|exact I1]. perm.
    - destruct IH as (I1 & I2 & I3 & I4). apply free_good in I1 as (J1 & J2 & J3).
      split; [exact J1|]. split; [congruence|]. split; [lia|].
      apply (refused_l H H1); [lia|]. eapply refused_r; [|exact I4]. lia.
  Qed.
End Alloc.

(** ** Objects *)

Section HvalInd.
  Variable P : hval -> Prop.
  Hypothesis Hn : forall n, P (HN n).
  Hypothesis Hseq : forall bs l, Forall P l -> P (HSeq bs l).
  Hypothesis Hnone : P HNone.
  Hypothesis Hsome : forall bs x, P x -> P (HSome bs x).
  Hypothesis Halt : forall i x, P x -> P (HAlt i x).
  Hypothesis Hvl : P HValueless.
  Hypothesis Hbits : forall l, P (HBits l).
  Hypothesis Hbytes : forall l, P (HBytes l).

  Fixpoint hval_ind' (h : hval) : P h :=
    match h with
    | HN n => Hn n
    | HSeq bs l => Hseq bs l ((fix go (l : list hval) : Forall P l :=
        match l with
        | [] => Forall_nil P
        | x :: l' => Forall_cons x (hval_ind' x) (go l')
        end) l)
    | HNone => Hnone
    | HSome bs x => Hsome bs x (hval_ind' x)
    | HAlt i x => Halt i x (hval_ind' x)
    | HValueless => Hvl
    | HBits l => Hbits l
    | HBytes l => Hbytes l
    end.
End HvalInd.

Lemma erase_bare v : erase (bare v) = v.
Proof.
  induction v using val_ind'; cbn [bare erase]; try congruence.
  f_equal. rewrite map_map. induction H as [|x l Hx _ IH]; cbn; congruence.
Qed.

Lemma erase_bares l : map erase (map bare l) = l.
Proof. rewrite map_map. induction l as [|x l IH]; cbn; [|rewrite erase_bare]; congruence. Qed.

Lemma own_bare v : own (bare v) = [].
Proof.
  induction v using val_ind'; cbn [bare own app]; auto.
  induction H as [|x l Hx _ IH]; cbn; [|rewrite Hx]; auto.
Qed.

Lemma own_bares l : flat_map own (map bare l) = [].
Proof. induction l as [|x l IH]; cbn; [|rewrite own_bare]; auto. Qed.

Section Shapes.
  Variables (G : tenv) (shared : ty -> bool).
  Notation shaped := (shaped G shared).

  (** Objects of byte-serializable types own nothing. *)
  Lemma bs_own t : forall h, bs t = true -> shaped h t = true -> own h = [].
  Proof.
    induction t using ty_ind'; intros h Hb Hs; try discriminate Hb;
      try (destruct h; try discriminate Hs; reflexivity).
    - destruct h as [|[|] [|]| | | | | |]; try discriminate Hs. reflexivity.
    - destruct h as [|[|] l| | | | | |]; try discriminate Hs. cbn [own app].
      cbn [bs] in Hb. rewrite !andb_true_iff in Hb. destruct Hb as [[[[_ Hb] _] _] _].
      cbn [Heap.shaped] in Hs. revert l Hs Hb. clear si.
      induction H as [|m ms Hm _ IH]; intros [|x l] Hs Hb; try discriminate; [reflexivity|].
      cbn [forall2b forallb flat_map] in *. apply andb_true_iff in Hs as [S1 S2].
      apply andb_true_iff in Hb as [B1 B2]. now rewrite (Hm x B1 S1), (IH l S2 B2).
    - destruct h as [|[|] l| | | | | |]; try discriminate Hs. cbn [own app].
      cbn [bs Heap.shaped] in *. induction l as [|x l IHl]; [reflexivity|].
      cbn [forallb flat_map] in *. apply andb_true_iff in Hs as [S1 S2].
      now rewrite (IHt x Hb S1), IHl.
  Qed.

  Lemma bs_owns t l : bs t = true -> forallb (fun x => shaped x t) l = true -> flat_map own l = [].
  Proof.
    intro Hb. induction l as [|x l IH]; [reflexivity|]. cbn [forallb flat_map]. intro Hs.
    apply andb_true_iff in Hs as [S1 S2]. now rewrite (bs_own t x Hb S1), IH.
  Qed.

  Lemma bs_shaped t : forall v, bs t = true -> wt G v t = true -> shaped (bare v) t = true.
  Proof.
    induction t using ty_ind'; intros v Hb Hs; try discriminate Hb;
      try (destruct v; try discriminate Hs; reflexivity).
    - destruct v as [|[|]| | | | | |]; try discriminate Hs. reflexivity.
    - destruct v as [|l| | | | | |]; try discriminate Hs. cbn [bare].
      cbn [bs] in Hb. rewrite !andb_true_iff in Hb. destruct Hb as [[[[_ Hb] _] _] _].
      cbn [Heap.shaped wt] in *. revert l Hs Hb. clear si.
      induction H as [|m ms Hm _ IH]; intros [|x l] Hs Hb; try discriminate; [reflexivity|].
      cbn [forall2b forallb map] in *. apply andb_true_iff in Hs as [S1 S2].
      apply andb_true_iff in Hb as [B1 B2]. now rewrite (Hm x B1 S1), (IH l S2 B2).
    - destruct v as [|l| | | | | |]; try discriminate Hs. cbn [bare].
      cbn [bs Heap.shaped wt] in *. apply andb_true_iff in Hs as [_ Hs].
      induction l as [|x l IHl]; [reflexivity|].
      cbn [forallb map] in *. apply andb_true_iff in Hs as [S1 S2].
      now rewrite (IHt x Hb S1), IHl.
  Qed.

  Lemma bs_shapeds t l : bs t = true -> forallb (fun x => wt G x t) l = true ->
    forallb (fun x => shaped x t) (map bare l) = true.
  Proof.
    intro Hb. induction l as [|x l IH]; [reflexivity|]. cbn [forallb map]. intro Hs.
    apply andb_true_iff in Hs as [S1 S2]. now rewrite (bs_shaped t x Hb S1), IH.
  Qed.

  (** Value-initialised classes own nothing. *)
  Definition bare_class (t : ty) : bool :=
    match t with TStruct si _ => shaped (bare (s_dflt si)) t | _ => true end.
  Definition bare_env : Prop := forall k, shaped (bare (s_dflt (t_info G k))) (TRec k) = true.

  Lemma dflt_shaped t : bare_env -> tall bare_class t = true -> shaped (bare (dflt G t)) t = true.
  Proof.
    intro HE. induction t using ty_ind'; intro Ht; cbn [dflt bare]; try reflexivity.
    - cbn [tall bare_class] in Ht. now apply andb_true_iff in Ht as [Ht _].
    - apply HE.
    - cbn [Heap.shaped]. cbn [tall] in Ht. apply andb_true_iff in Ht as [_ Ht].
      rewrite forallb_forall. intros x Hx. apply in_map_iff in Hx as (y & <- & Hy).
      apply repeat_spec in Hy. subst y. auto.
    - cbn [Heap.shaped]. cbn [tall] in Ht. apply andb_true_iff in Ht as [_ Ht].
      induction H as [|m ms Hm _ IH]; [reflexivity|]. cbn [map forall2b forallb] in *.
      apply andb_true_iff in Ht as [T1 T2]. now rewrite (Hm T1), (IH T2).
    - cbn [Heap.shaped bare map length forallb]. now destruct cg.
    - destruct alts as [|t0 alts]; [reflexivity|]. cbn [bare Heap.shaped nth_error].
      cbn [tall forallb] in Ht. apply andb_true_iff in Ht as [_ Ht]. apply andb_true_iff in Ht as [Ht _].
      inversion H; subst. auto.
    - destruct k; reflexivity.
  Qed.
End Shapes.

(** ** Reading *)

Section HeapLoops.
  Variables (ok : nat -> bool) (G : tenv) (data : list byte) (shared : ty -> bool).
  Notation shaped := (shaped G shared).
  Notation safe_f := (safe_f G data true true).

  Definition hout (t : ty) (pos : nat) (H : heap) (F : nat -> nat) (x : hres) (y : dres) : Prop :=
    match x with (r, h, p, H') =>
      good H' (own h) F /\ hbad H' = hbad H /\ (hnext H <= hnext H')%nat /\ shaped h t = true /\
      ((r, erase h, p) = y
       \/ r = RThrow /\ refused ok H H' /\ (pos <= p <= length data)%nat /\ wt G (erase h) t = true)
    end.

  Definition hsafe (t : ty) (hf : hval -> nat -> heap -> hres) (f : val -> nat -> dres) : Prop :=
    forall h pos H F, (pos <= length data)%nat -> wt G (erase h) t = true -> shaped h t = true ->
      good H (own h) F -> hout t pos H F (hf h pos H) (f (erase h) pos).

  Definition hsafe_both t hf f : Prop := safe_f t f /\ hsafe t hf f.

  Lemma hdes_many_ok hf f ms :
    Forall (fun m => hsafe_both m (hf m) (f m)) ms ->
    forall priors pos H F, (pos <= length data)%nat ->
      forall2b (fun x m => wt G x m) (map erase priors) ms = true ->
      forall2b (fun x m => shaped x m) priors ms = true ->
      good H (flat_map own priors) F ->
      match hdes_many hf ms priors pos H with (r, l, p, H') =>
        good H' (flat_map own l) F /\ hbad H' = hbad H /\ (hnext H <= hnext H')%nat /\
        forall2b (fun x m => shaped x m) l ms = true /\
        ((r, map erase l, p) = des_many f ms (map erase priors) pos
         \/ r = RThrow /\ refused ok H H' /\ (pos <= p <= length data)%nat
            /\ forall2b (fun x m => wt G x m) (map erase l) ms = true)
      end.
  Proof.
    induction 1 as [|m ms [Sm Hm] _ IH]; intros priors pos H F Hp Hw Hs HG; cbn [hdes_many des_many].
    { destruct priors; [|discriminate]. split; [exact HG|]. auto 6. }
    destruct priors as [|x priors]; [discriminate|]. cbn [forall2b tl map flat_map] in *.
    apply andb_true_iff in Hw as [Wx Hw]. apply andb_true_iff in Hs as [Sx Hs].
    apply good_frame in HG. pose proof (Hm x pos H _ Hp Wx Sx HG) as O.
    pose proof (Sm (erase x) pos Hp Wx) as S.
    destruct (hf m x pos H) as [[[r v] p] H1]. cbn [hout] in O.
    destruct O as (O1 & O2 & O3 & O4 & O5). apply good_frame in O1.
    destruct O5 as [E|(-> & R & Rg & W)].
    2:{ cbn [flat_map forall2b map]. split; [exact O1|]. split; [exact O2|]. split; [exact O3|].
        rewrite O4, Hs, W. cbn [andb]. split; [reflexivity|]. right. auto. }
    rewrite <- E in S |- *. cbn [safe_out] in S. destruct S as (S1 & S2 & _).
    destruct r; try (cbn [flat_map forall2b map]; rewrite O4, Hs; auto 7).
    eapply good_perm in O1; [|instantiate (1 := flat_map own priors ++ own v); perm].
    apply good_frame in O1.
    specialize (IH priors p H1 _ ltac:(lia) Hw Hs O1).
    destruct (hdes_many hf ms priors p H1) as [[[r' vs] p'] H2].
    destruct IH as (I1 & I2 & I3 & I4 & I5).
    cbn [flat_map forall2b map]. rewrite O4. split.
    { apply good_frame in I1. eapply good_perm; [|exact I1]. perm. }
    split; [congruence|]. split; [lia|]. split; [exact I4|].
    destruct I5 as [<-|(-> & R & Rg & W)]; [left; reflexivity|right].
    split; [reflexivity|]. split; [now apply refused_l with H1|]. split; [lia|]. now rewrite S2, W.
  Qed.

  Lemma hdes_all_ok hf f t :
    hsafe_both t hf f ->
    forall l pos H F, (pos <= length data)%nat ->
      forallb (fun x => wt G x t) (map erase l) = true ->
      forallb (fun x => shaped x t) l = true ->
      good H (flat_map own l) F ->
      match hdes_all hf l pos H with (r, l', p, H') =>
        good H' (flat_map own l') F /\ hbad H' = hbad H /\ (hnext H <= hnext H')%nat /\
        forallb (fun x => shaped x t) l' = true /\ length l' = length l /\
        ((r, map erase l', p) = des_all f (map erase l) pos
         \/ r = RThrow /\ refused ok H H' /\ (pos <= p <= length data)%nat
            /\ forallb (fun x => wt G x t) (map erase l') = true)
      end.
  Proof.
    intros [Sf Hf]. induction l as [|x l IH]; intros pos H F Hp Hw Hs HG; cbn [hdes_all des_all map].
    { split; [exact HG|]. auto 7. }
    cbn [forallb map flat_map] in *.
    apply andb_true_iff in Hw as [Wx Hw]. apply andb_true_iff in Hs as [Sx Hs].
    apply good_frame in HG. pose proof (Hf x pos H _ Hp Wx Sx HG) as O.
    pose proof (Sf (erase x) pos Hp Wx) as S.
    destruct (hf x pos H) as [[[r v] p] H1]. cbn [hout] in O.
    destruct O as (O1 & O2 & O3 & O4 & O5). apply good_frame in O1.
    destruct O5 as [E|(-> & R & Rg & W)].
    2:{ cbn [flat_map forallb map]. split; [exact O1|]. split; [exact O2|]. split; [exact O3|].
        rewrite O4, Hs, W. cbn [andb]. split; [reflexivity|]. split; [reflexivity|]. right. auto. }
    rewrite <- E in S |- *. cbn [safe_out] in S. destruct S as (S1 & S2 & _).
    destruct r; try (cbn [flat_map forallb map length]; rewrite O4, Hs; auto 8).
    eapply good_perm in O1; [|instantiate (1 := flat_map own l ++ own v); perm].
    apply good_frame in O1.
    specialize (IH p H1 _ ltac:(lia) Hw Hs O1).
    destruct (hdes_all hf l p H1) as [[[r' vs] p'] H2].
    destruct IH as (I1 & I2 & I3 & I4 & I5 & I6).
    cbn [flat_map forallb map length]. rewrite O4. split.
    { apply good_frame in I1. eapply good_perm; [|exact I1]. perm. }
    split; [congruence|]. split; [lia|]. split; [exact I4|]. split; [lia|].
    destruct I6 as [<-|(-> & R & Rg & W)]; [left; reflexivity|right].
    split; [reflexivity|]. split; [now apply refused_l with H1|]. split; [lia|]. now rewrite S2, W.
  Qed.

  (** Insertion. *)
  Lemma erase_hinsert k lt l x :
    map erase (hinsert_sorted k lt l x) = insert_sorted lt (akey k) (map erase l) (erase x).
  Proof.
    induction l as [|y l IH]; [reflexivity|]. cbn [hinsert_sorted insert_sorted map].
    destruct (lt _ _); cbn [map]; congruence.
  Qed.

  Lemma existsb_erase k l x :
    existsb (fun y => equivalent k y (erase x)) (map erase l)
    = existsb (fun y => equivalent k (erase y) (erase x)) l.
  Proof. induction l as [|y l IH]; [reflexivity|]. cbn [map existsb]. now rewrite IH. Qed.

  Lemma erase_hplace k l x :
    negb (a_multi k) && existsb (fun y => equivalent k (erase y) (erase x)) l = false ->
    map erase (hplace k l x) = assoc_insert k (map erase l) (erase x).
  Proof.
    intro E. unfold hplace, assoc_insert. rewrite existsb_erase, E.
    destruct (a_cmp k); [apply erase_hinsert|]. now rewrite map_app.
  Qed.

  Lemma hplace_in k l x : forall y, In y (hplace k l x) <-> In y (x :: l).
  Proof.
    assert (S : forall lt y, In y (hinsert_sorted k lt l x) <-> In y (x :: l)).
    { intros lt y. induction l as [|z l' IH]; [reflexivity|]. cbn [hinsert_sorted].
      destruct (lt _ _); [reflexivity|]. cbn [In] in *. rewrite IH. tauto. }
    intro y. unfold hplace. destruct (a_cmp k); [apply S|]. rewrite in_app_iff. cbn [In]. tauto.
  Qed.

  Lemma hplace_own k l x : forall b, cnt b (flat_map own (hplace k l x)) = cnt b (own x ++ flat_map own l).
  Proof.
    assert (S : forall lt b, cnt b (flat_map own (hinsert_sorted k lt l x)) = cnt b (own x ++ flat_map own l)).
    { intros lt b. induction l as [|z l' IH]; [reflexivity|]. cbn [hinsert_sorted].
      destruct (lt _ _); [reflexivity|]. cbn [flat_map] in *. rewrite !cnt_app in *. lia. }
    intro b. unfold hplace. destruct (a_cmp k); [apply S|].
    rewrite flat_map_app. cbn [flat_map]. rewrite app_nil_r, !cnt_app. lia.
  Qed.

  Lemma hplace_length k l x : length (hplace k l x) = S (length l).
  Proof.
    assert (S : forall lt, length (hinsert_sorted k lt l x) = S (length l)).
    { intros lt. induction l as [|z l' IH]; [reflexivity|]. cbn [hinsert_sorted].
      destruct (lt _ _); [reflexivity|]. cbn [length]. now rewrite IH. }
    unfold hplace. destruct (a_cmp k); [apply S|]. rewrite app_length. cbn. lia.
  Qed.

  Lemma hdes_assoc_ok hf f s k t d :
    cmp_ok G (TAssoc s k t) -> hsafe_both t hf f -> wt G d t = true -> shaped (bare d) t = true ->
    forall n bs acc pos H F, (pos <= length data)%nat ->
      wt G (VSeq (map erase acc)) (TAssoc s k t) = true ->
      shaped (HSeq bs acc) (TAssoc s k t) = true ->
      good H (bs ++ flat_map own acc) F ->
      match hdes_assoc ok hf k (bare d) n bs acc pos H with (r, bs', l', p, H') =>
        good H' (bs' ++ flat_map own l') F /\ hbad H' = hbad H /\ (hnext H <= hnext H')%nat /\
        shaped (HSeq bs' l') (TAssoc s k t) = true /\
        ((r, map erase l', p) = des_assoc f (assoc_insert k) d n (map erase acc) pos
         \/ r = RThrow /\ refused ok H H' /\ (pos <= p <= length data)%nat
            /\ wt G (VSeq (map erase l')) (TAssoc s k t) = true)
      end.
  Proof.
    intros Hc [Sf Hf] Wd Sd. induction n as [|n IH]; intros bs acc pos H F Hp Hw Hs HG;
      cbn [hdes_assoc des_assoc]; [auto 7|].
    rewrite <- (erase_bare d) in Wd.
    pose proof (Hf (bare d) pos H (fun b => (cnt b (bs ++ flat_map own acc) + F b)%nat) Hp Wd Sd) as O.
    rewrite own_bare in O. specialize (O (good_all _ _ _ HG)).
    rewrite erase_bare in O, Wd. pose proof (Sf d pos Hp Wd) as S.
    destruct (hf (bare d) pos H) as [[[r x] p] H1]. cbn [hout] in O.
    destruct O as (O1 & O2 & O3 & O4 & O5). apply good_frame in O1.
    destruct (destroy_good x H1 _ F O1) as (D1 & D2 & D3).
    destruct O5 as [E|(-> & R & Rg & W)].
    2:{ split; [exact D1|]. split; [congruence|]. split; [lia|]. split; [exact Hs|]. right.
        split; [reflexivity|]. split; [|auto]. eapply refused_r; [|exact R]. lia. }
    rewrite <- E in S |- *. cbn [safe_out] in S. destruct S as (S1 & S2 & _).
    destruct r;
      try (split; [exact D1|]; split; [congruence|]; split; [lia|]; split; [exact Hs|left; reflexivity]).
    destruct (negb (a_multi k) && _) eqn:Ed.
    - (* an equal element is there: the temporary is dropped *)
      assert (Ei : assoc_insert k (map erase acc) (erase x) = map erase acc).
      { unfold assoc_insert. now rewrite existsb_erase, Ed. }
      rewrite Ei. specialize (IH bs acc p (destroy x H1) F ltac:(lia) Hw Hs D1).
      destruct (hdes_assoc _ _ _ _ _ _ _ _ _) as [[[[r' bs'] l'] p'] H2].
      destruct IH as (I1 & I2 & I3 & I4 & I5). split; [exact I1|]. split; [congruence|]. split; [lia|].
      split; [exact I4|]. destruct I5 as [I5|(J1 & J2 & J3 & J4)]; [left; exact I5|right].
      split; [exact J1|]. split; [eapply refused_l; [|exact J2]; lia|]. split; [lia|exact J4].
    - pose proof (alloc_good ok H1 _ F O1) as A. destruct (alloc ok H1) as [[b|] H2].
      + destruct A as (A1 & A2 & A3). rewrite <- erase_hplace by exact Ed.
        assert (Hw' : wt G (VSeq (map erase (hplace k acc x))) (TAssoc s k t) = true).
        { rewrite erase_hplace by exact Ed. now apply assoc_insert_wt. }
        assert (Hs' : shaped (HSeq (b :: bs) (hplace k acc x)) (TAssoc s k t) = true).
        { cbn [Heap.shaped length] in *. rewrite hplace_length. apply andb_true_iff in Hs as [L1 L2].
          apply andb_true_iff. split; [apply Nat.eqb_eq in L1; apply Nat.eqb_eq; lia|].
          rewrite forallb_forall in *. intros y Hy. apply hplace_in in Hy as [<-|Hy]; auto. }
        assert (HG' : good H2 ((b :: bs) ++ flat_map own (hplace k acc x)) F).
        { eapply good_perm; [|exact A1]. intro q. cbn [app].
          rewrite !cnt_cons, !cnt_app, hplace_own, !cnt_app. lia. }
        specialize (IH (b :: bs) (hplace k acc x) p H2 F ltac:(lia) Hw' Hs' HG').
        destruct (hdes_assoc _ _ _ _ _ _ _ _ _) as [[[[r' bs'] l'] p'] H3].
        destruct IH as (I1 & I2 & I3 & I4 & I5). split; [exact I1|]. split; [congruence|]. split; [lia|].
        split; [exact I4|]. destruct I5 as [I5|(J1 & J2 & J3 & J4)]; [left; exact I5|right].
        split; [exact J1|]. split; [eapply refused_l; [|exact J2]; lia|]. split; [lia|exact J4].
      + destruct A as (A1 & A2 & A3 & A4).
        destruct (destroy_good x H2 _ F A1) as (K1 & K2 & K3).
        split; [exact K1|]. split; [congruence|]. split; [lia|]. split; [exact Hs|]. right.
        split; [reflexivity|]. split.
        { eapply refused_l; [|eapply refused_r; [|exact A4]]; lia. }
        split; [lia|exact Hw].
  Qed.

  Lemma hdes_inplace_ok dc hf f hwrap wrap hcur d prior pos H F t t' :
    hsafe_both t' hf f -> wt G d t' = true -> shaped (bare d) t' = true ->
    (forall x, hcur = Some x -> wt G (erase x) t' = true /\ shaped x t' = true /\ own x = own prior) ->
    wt G (erase prior) t = true -> shaped prior t = true ->
    (forall x, erase (hwrap x) = wrap (erase x) /\ own (hwrap x) = own x) ->
    (forall x, wt G x t' = true -> wt G (wrap x) t = true) ->
    (forall x, shaped x t' = true -> shaped (hwrap x) t = true) ->
    (pos <= length data)%nat -> good H (own prior) F ->
    hout t pos H F (hdes_inplace dc hf hwrap hcur (bare d) prior pos H)
      (des_inplace dc f wrap (option_map erase hcur) d (erase prior) pos).
  Proof.
    intros [Sf Hf] Wd Sd Hcur Wp Sp Hwr Hww Hws Hp HG. unfold hdes_inplace, des_inplace.
    destruct dc; [destruct hcur as [x|]|]; cbn [option_map].
    - destruct (Hcur x eq_refl) as (Wx & Sx & Ox). rewrite <- Ox in HG.
      pose proof (Hf x pos H F Hp Wx Sx HG) as O.
      destruct (hf x pos H) as [[[r v] p] H1]. cbn [hout] in *.
      destruct O as (O1 & O2 & O3 & O4 & O5). destruct (Hwr v) as [Ew Eo]. rewrite Ew, Eo.
      split; [exact O1|]. split; [exact O2|]. split; [exact O3|]. split; [now apply Hws|].
      destruct O5 as [<-|(-> & R & Rg & W)]; [left; reflexivity|right; auto].
    - destruct (destroy_good prior H [] F ltac:(now rewrite app_nil_r)) as (D1 & D2 & D3).
      pose proof (Hf (bare d) pos (destroy prior H) F Hp) as O. rewrite erase_bare, own_bare in O.
      specialize (O Wd Sd D1).
      destruct (hf (bare d) pos (destroy prior H)) as [[[r v] p] H1]. cbn [hout] in *.
      destruct O as (O1 & O2 & O3 & O4 & O5). destruct (Hwr v) as [Ew Eo]. rewrite Ew, Eo.
      split; [exact O1|]. split; [congruence|]. split; [lia|]. split; [now apply Hws|].
      destruct O5 as [<-|(-> & R & Rg & W)]; [left; reflexivity|right].
      split; [reflexivity|]. split; [eapply refused_l; [|exact R]; lia|auto].
    - pose proof (Hf (bare d) pos H (fun b => (cnt b (own prior) + F b)%nat) Hp) as O.
      rewrite erase_bare, own_bare in O. specialize (O Wd Sd (good_all _ _ _ HG)).
      destruct (hf (bare d) pos H) as [[[r v] p] H1]. cbn [hout] in O.
      destruct O as (O1 & O2 & O3 & O4 & O5). apply good_frame in O1.
      destruct (destroy_good v H1 _ F O1) as (D1 & D2 & D3).
      eapply good_perm in O1; [|instantiate (1 := own prior ++ own v); perm].
      destruct (destroy_good prior H1 _ F O1) as (K1 & K2 & K3).
      destruct O5 as [<-|(-> & R & Rg & W)].
      + destruct r; cbn [hout];
          try (split; [exact D1|]; split; [congruence|]; split; [lia|]; split; [exact Sp|left; reflexivity]).
        destruct (Hwr v) as [Ew Eo]. rewrite Ew, Eo.
        split; [exact K1|]; split; [congruence|]; split; [lia|]; split; [now apply Hws|left; reflexivity].
      + cbn [hout]. split; [exact D1|]; split; [congruence|]; split; [lia|]; split; [exact Sp|right].
        split; [reflexivity|]. split; [eapply refused_r; [|exact R]; lia|auto].
  Qed.

  Lemma hdes_ptr_ok (sh : bool) hf f d prior pos H F t t' :
    hsafe_both t' hf f -> wt G d t' = true -> shaped (bare d) t' = true ->
    wt G (erase prior) t = true -> shaped prior t = true ->
    (forall x, wt G x t' = true -> wt G (VSome x) t = true) ->
    (forall bs x, shaped x t' = true -> length bs = (if sh then 2 else 1)%nat ->
       shaped (HSome bs x) t = true) ->
    (pos <= length data)%nat -> good H (own prior) F ->
    hout t pos H F (hdes_ptr ok sh hf (bare d) prior pos H) (des_ptr f d (erase prior) pos).
  Proof.
    intros [Sf Hf] Wd Sd Wp Sp Hw Hs Hp HG. unfold hdes_ptr, des_ptr.
    pose proof (alloc_good ok H _ F HG) as A. destruct (alloc ok H) as [[b|] H1].
    2:{ destruct A as (A1 & A2 & A3 & A4). cbn [hout]. split; [exact A1|]. split; [exact A2|].
        split; [exact A3|]. split; [exact Sp|]. right. auto. }
    destruct A as (A1 & A2 & A3).
    pose proof (Hf (bare d) pos H1 (fun q => (cnt q (b :: own prior) + F q)%nat) Hp) as O.
    rewrite erase_bare, own_bare in O. specialize (O Wd Sd (good_all _ _ _ A1)).
    pose proof (Sf d pos Hp Wd) as S.
    destruct (hf (bare d) pos H1) as [[[r v] p] H2]. cbn [hout] in O.
    destruct O as (O1 & O2 & O3 & O4 & O5). apply good_frame in O1.
    assert (X1 : good H2 (own (HSome [b] v) ++ own prior) F)
      by (cbn [own]; eapply good_perm; [|exact O1]; perm).
    destruct (destroy_good _ _ _ _ X1) as (D1 & D2 & D3).
    destruct O5 as [E|(-> & R & Rg & W)].
    2:{ cbn [hout]. split; [exact D1|]; split; [congruence|]; split; [lia|]; split; [exact Sp|right].
        split; [reflexivity|]. split; [|auto]. eapply refused_l; [|eapply refused_r; [|exact R]]; lia. }
    rewrite <- E in S |- *. cbn [safe_out] in S. destruct S as (S1 & S2 & _).
    destruct r; try (cbn [hout]; split; [exact D1|]; split; [congruence|]; split; [lia|];
      split; [exact Sp|left; reflexivity]).
    destruct sh.
    - pose proof (alloc_good ok H2 _ F X1) as B. destruct (alloc ok H2) as [[cb|] H3].
      + destruct B as (B1 & B2 & B3).
        assert (X2 : good H3 (own prior ++ own (HSome [b; cb] v)) F)
          by (cbn [own] in *; eapply good_perm; [|exact B1]; perm).
        destruct (destroy_good _ _ _ _ X2) as (K1 & K2 & K3).
        cbn [hout]. split; [exact K1|]; split; [congruence|]; split; [lia|].
        split; [now apply Hs|left; reflexivity].
      + destruct B as (B1 & B2 & B3 & B4). destruct (destroy_good _ _ _ _ B1) as (K1 & K2 & K3).
        cbn [hout]. split; [exact K1|]; split; [congruence|]; split; [lia|]; split; [exact Sp|right].
        split; [reflexivity|]. split; [eapply refused_l; [|eapply refused_r; [|exact B4]]; lia|].
        split; [lia|exact Wp].
    - assert (X2 : good H2 (own prior ++ own (HSome [b] v)) F)
        by (cbn [own] in *; eapply good_perm; [|exact X1]; perm).
      destruct (destroy_good _ _ _ _ X2) as (K1 & K2 & K3).
      cbn [hout]. split; [exact K1|]; split; [congruence|]; split; [lia|].
      split; [now apply Hs|left; reflexivity].
  Qed.

  Lemma hout_weaken t pos pos' H F x y : (pos <= pos')%nat -> hout t pos' H F x y -> hout t pos H F x y.
  Proof.
    destruct x as [[[r h] p] H']. cbn [hout]. intros L (O1 & O2 & O3 & O4 & O5).
    split; [exact O1|]; split; [exact O2|]; split; [exact O3|]; split; [exact O4|].
    destruct O5 as [E|(E & R & Rg & W)]; [left; exact E|right]. split; [exact E|].
    split; [exact R|]. split; [lia|exact W].
  Qed.
End HeapLoops.

Definition no_span (t : ty) : bool := match t with TSpan _ _ => false | _ => true end.

Section HeapTy.
  Variables (ok : nat -> bool) (G : tenv) (c : cfg) (data : list byte) (shared : ty -> bool).
  Notation shaped := (shaped G shared).
  Notation safe_f := (safe_f G data true true).
  Notation hout := (hout ok G data shared).
  Notation hsafe := (hsafe ok G data shared).
  Notation hsafe_both := (hsafe_both ok G data shared).
  Hypothesis (Hsm : small data) (HG : wf_env G) (Hds : wfsz (Some (dsize c)) = true).
  Hypothesis (HB : bare_env G shared).

  (** [t] has no spans, and its classes are born without memory. *)
  Definition tracked (t : ty) : bool := no_span t && bare_class G shared t.

  Lemma tracked_bare t : tall tracked t = true -> tall (bare_class G shared) t = true.
  Proof. apply tall_sub. intros t0 H. now apply andb_true_iff in H. Qed.

  Lemma flagged_all t : tall (flagged true true) t = true.
  Proof.
    induction t using ty_ind'; cbn [tall flagged orb andb]; auto;
      rewrite forallb_forall; rewrite Forall_forall in H; auto.
  Qed.

  Lemma hleaf_ok t f : (forall h, shaped h t = true -> own h = []) ->
    (forall v, wt G v t = true -> shaped (bare v) t = true) ->
    safe_f t f -> hsafe t (fun h pos H => hleaf (f (erase h) pos) H) f.
  Proof.
    intros Ho Hs Sf h pos H F Hp Hw Hsh Hg. pose proof (Sf (erase h) pos Hp Hw) as S.
    unfold hleaf. destruct (f (erase h) pos) as [[r v] p]. cbn [safe_out hout] in *.
    destruct S as (S1 & S2 & _). rewrite (Ho h Hsh) in Hg. rewrite own_bare, erase_bare.
    split; [exact Hg|]. split; [reflexivity|]. split; [lia|]. split; [now apply Hs|now left].
  Qed.

  Lemma hdes_elems_ok (b : bool) hf f t' bs l pos H F t :
    (b = true -> Types.bs t' = true) -> wf G t' = true ->
    hsafe_both t' hf f ->
    (pos <= length data)%nat ->
    forallb (fun x => wt G x t') (map erase l) = true ->
    forallb (fun x => shaped x t') l = true ->
    good H (bs ++ flat_map own l) F ->
    (forall l', length l' = length l -> forallb (fun x => wt G x t') (map erase l') = true ->
       wt G (VSeq (map erase l')) t = true) ->
    (forall l', length l' = length l -> forallb (fun x => shaped x t') l' = true ->
       shaped (HSeq bs l') t = true) ->
    hout t pos H F (hdes_elems c data b hf t' bs l pos H) (des_elems c data b f t' (map erase l) pos).
  Proof.
    intros Hb Hw [Sf Hf] Hp Hwt Hsh Hg Kw Ks. unfold hdes_elems, des_elems. destruct b.
    - pose proof (des_bytes_safe G c data true true Hsm t' (map erase l) pos Hw (Hb eq_refl)
        (flagged_all t') Hp Hwt) as S. rewrite map_length in *.
      destruct (des_bytes c data t' (length l) (map erase l) pos) as [[r vs] p].
      destruct S as (S1 & S2 & S3 & _). cbn [hout seq_res own erase].
      rewrite own_bares, erase_bares, app_nil_r.
      rewrite (bs_owns G shared t' l (Hb eq_refl) Hsh), app_nil_r in Hg.
      split; [exact Hg|]. split; [reflexivity|]. split; [lia|]. split; [|now left].
      apply Ks; [rewrite map_length; lia|]. now apply bs_shapeds; auto.
    - eapply good_perm in Hg; [|instantiate (1 := flat_map own l ++ bs); perm].
      apply good_frame in Hg.
      pose proof (hdes_all_ok ok G data shared hf f t' (conj Sf Hf) l pos H _ Hp Hwt Hsh Hg) as O.
      destruct (hdes_all hf l pos H) as [[[r l'] p] H']. destruct O as (O1 & O2 & O3 & O4 & O5 & O6).
      cbn [hout hseq_res own erase]. apply good_frame in O1.
      split; [eapply good_perm; [|exact O1]; perm|]. split; [exact O2|]. split; [exact O3|].
      split; [now apply Ks|]. destruct O6 as [<-|(-> & R & Rg & W)]; [now left|right].
      split; [reflexivity|]. split; [exact R|]. split; [exact Rg|]. now apply Kw.
  Qed.

  Lemma skipn_repeat_own d n : flat_map own (repeat (bare d) n) = [].
  Proof. induction n as [|n IH]; [reflexivity|]. cbn [repeat flat_map]. now rewrite own_bare. Qed.

  Lemma erase_repeat d n : map erase (repeat (bare d) n) = repeat d n.
  Proof. induction n as [|n IH]; [reflexivity|]. cbn [repeat map]. now rewrite erase_bare, IH. Qed.

  (** Resizing. *)
  Lemma hvec_resize_ok s cg t n bs l H F :
    shaped (HSeq bs l) (TVec s cg t) = true -> good H (bs ++ flat_map own l) F ->
    shaped (bare (dflt G t)) t = true ->
    match hvec_resize ok c t cg (bare (dflt G t)) n bs l H with (r, bs', l', H') =>
      good H' (bs' ++ flat_map own l') F /\ hbad H' = hbad H /\ (hnext H <= hnext H')%nat /\
      shaped (HSeq bs' l') (TVec s cg t) = true /\
      ((r, map erase l') = vec_resize G c t n (map erase l)
       \/ r = RThrow /\ refused ok H H' /\ l' = l)
    end.
  Proof.
    intros Hs Hg Sd. unfold hvec_resize, vec_resize. rewrite map_length.
    destruct (over_limit c t n); [auto 7|].
    cbn [Heap.shaped] in Hs. apply andb_true_iff in Hs as [Hb Hs].
    destruct (N.leb_spec n (N.of_nat (length l))) as [Hn|Hn]; cbn [orb].
    - assert (Ev : vresize (dflt G t) (N.to_nat n) (map erase l) = map erase (firstn (N.to_nat n) l)).
      { unfold vresize. rewrite map_length.
        replace (N.to_nat n - length l)%nat with O by lia. cbn [repeat].
        now rewrite app_nil_r, firstn_map. }
      rewrite Ev.
      assert (Hs' : forallb (fun x => shaped x t) (firstn (N.to_nat n) l) = true).
      { rewrite <- (firstn_skipn (N.to_nat n) l), forallb_app in Hs. now apply andb_true_iff in Hs. }
      assert (Eo : forall b, cnt b (flat_map own l)
        = cnt b (flat_map own (skipn (N.to_nat n) l) ++ flat_map own (firstn (N.to_nat n) l))).
      { intro b. rewrite <- (firstn_skipn (N.to_nat n) l) at 1. rewrite flat_map_app, !cnt_app. lia. }
      destruct cg.
      + assert (X : good H (flat_map own (skipn (N.to_nat n) l) ++ (bs ++ flat_map own (firstn (N.to_nat n) l))) F).
        { eapply good_perm; [|exact Hg]. intro b. specialize (Eo b). rewrite !cnt_app in *. lia. }
        apply free_all_good in X as (X1 & X2 & X3).
        split; [exact X1|]. split; [exact X2|]. split; [lia|]. split; [|now left].
        cbn [Heap.shaped]. now rewrite Hb.
      + assert (X : good H ((flat_map own (skipn (N.to_nat n) l) ++ skipn (N.to_nat n) bs)
          ++ (firstn (N.to_nat n) bs ++ flat_map own (firstn (N.to_nat n) l))) F).
        { eapply good_perm; [|exact Hg]. intro b. specialize (Eo b).
          rewrite <- (firstn_skipn (N.to_nat n) bs) at 1. rewrite !cnt_app in *. lia. }
        apply free_all_good in X as (X1 & X2 & X3).
        split; [exact X1|]. split; [exact X2|]. split; [lia|]. split; [|now left].
        cbn [Heap.shaped]. rewrite Hs', !firstn_length. apply Nat.eqb_eq in Hb.
        rewrite Hb, Nat.eqb_refl. reflexivity.
    - destruct (can_alloc c (n * csizeof c t)).
      2:{ split; [exact Hg|]. split; [reflexivity|]. split; [lia|]. split; [|now left].
          cbn [Heap.shaped]. now rewrite Hb, Hs. }
      assert (Ev : vresize (dflt G t) (N.to_nat n) (map erase l)
        = map erase (l ++ repeat (bare (dflt G t)) (N.to_nat n - length l))).
      { unfold vresize. rewrite map_length, map_app, erase_repeat. f_equal.
        apply firstn_all2. rewrite map_length. lia. }
      rewrite Ev.
      assert (Hs' : forallb (fun x => shaped x t) (l ++ repeat (bare (dflt G t)) (N.to_nat n - length l)) = true).
      { rewrite forallb_app, Hs. cbn [andb]. rewrite forallb_forall. intros x Hx.
        apply repeat_spec in Hx. now subst x. }
      assert (Eo : flat_map own (l ++ repeat (bare (dflt G t)) (N.to_nat n - length l)) = flat_map own l)
        by (rewrite flat_map_app, skipn_repeat_own; apply app_nil_r).
      destruct cg.
      + pose proof (alloc_good ok H _ F Hg) as A. destruct (alloc ok H) as [[b|] H1].
        * destruct A as (A1 & A2 & A3).
          assert (X : good H1 (bs ++ ([b] ++ flat_map own l)) F)
            by (eapply good_perm; [|exact A1]; perm).
          apply free_all_good in X as (X1 & X2 & X3). rewrite Eo.
          split; [exact X1|]. split; [congruence|]. split; [lia|]. split; [|now left].
          cbn [Heap.shaped length Nat.leb andb]. exact Hs'.
        * destruct A as (A1 & A2 & A3 & A4). split; [exact A1|]. split; [exact A2|]. split; [exact A3|].
          split; [cbn [Heap.shaped]; now rewrite Hb, Hs|right; auto].
      + pose proof (alloc_n_good ok (N.to_nat n - length l) H _ F Hg) as A.
        destruct (alloc_n ok (N.to_nat n - length l) H) as [[new|] H1].
        * destruct A as (A1 & A2 & A3 & A4). rewrite Eo.
          split; [eapply good_perm; [|exact A1]; perm|]. split; [congruence|]. split; [lia|].
          split; [|now left]. cbn [Heap.shaped]. rewrite Hs', !app_length, repeat_length, A4.
          apply Nat.eqb_eq in Hb. rewrite Hb, Nat.eqb_refl. reflexivity.
        * destruct A as (A1 & A2 & A3 & A4). split; [exact A1|]. split; [exact A2|]. split; [exact A3|].
          split; [cbn [Heap.shaped]; now rewrite Hb, Hs|right; auto].
  Qed.

  Variable hrec : nat -> hval -> nat -> heap -> hres.
  Variable rec : nat -> val -> nat -> dres.
  Hypothesis Hrec : forall k, hsafe_both (TRec k) (hrec k) (rec k).

  Lemma hdes_variant_eq ik meta alts prior pos H :
    hdes_ty ok G c data shared hrec (TVariant ik meta alts) prior pos H =
    match des_id c data ik pos with
    | (ROk, id, pos') =>
        match find_id meta id with
        | None => (RErr bad_message, prior, pos', H)
        | Some i =>
            match nth_error alts i with
            | Some t' =>
                hdes_inplace (match nth_error meta i with Some (_, b) => b | None => true end)
                  (hdes_ty ok G c data shared hrec t') (HAlt i) (hactive i prior) (bare (dflt G t'))
                  prior pos' H
            | None => (RUB, prior, pos', H)
            end
        end
    | (r, _, pos') => (r, prior, pos', H)
    end.
  Proof.
    cbn [hdes_ty]. destruct (des_id c data ik pos) as [[r id] p]. destruct r; try reflexivity.
    destruct (find_id meta id) as [i|]; [|reflexivity].
    generalize (HAlt i) (hactive i prior) (match nth_error meta i with Some (_, b) => b | None => true end).
    intros w a dc. revert i. induction alts as [|t' l IH]; intros [|i]; cbn [nth_error]; auto.
  Qed.

  Lemma erase_has h : as_seq (erase h) = map erase (has h).
  Proof. destruct h; reflexivity. Qed.

  Lemma ty_safe t : wf G t = true -> tallP (cmp_ok G) t -> safe_f t (des_ty G c data rec t).
  Proof.
    intros Hw Hcp. apply des_ty_safe; [exact Hsm|exact HG|exact Hds| |exact Hw|apply flagged_all|exact Hcp].
    intros k _. exact (proj1 (Hrec k)).
  Qed.

  Lemma hdes_ty_ok t :
    wf G t = true -> tallP (cmp_ok G) t -> tall tracked t = true ->
    hsafe_both t (hdes_ty ok G c data shared hrec t) (des_ty G c data rec t).
  Proof.
    intros Hw Hcp Ht.
    split; [now apply ty_safe|].
    revert Hw Hcp Ht. induction t using ty_ind'; intros Hw Hcp Ht.
    all: match goal with
         | |- hsafe (TRec _) _ _ => idtac
         | |- hsafe ?t _ _ =>
             assert (Self : safe_f t (des_ty G c data rec t))
               by (apply ty_safe; assumption)
         end.
    - apply (hleaf_ok _ _) in Self; [exact Self|intros []; try discriminate; reflexivity..].
    - apply (hleaf_ok _ _) in Self; [exact Self|intros []; try discriminate; reflexivity..].
    - apply (hleaf_ok _ _) in Self; [exact Self|intros []; try discriminate; reflexivity..].
    - apply (hleaf_ok _ _) in Self; [exact Self| |].
      + intros [|[|] [|]| | | | | |]; try discriminate; reflexivity.
      + intros [|[|]| | | | | |]; try discriminate; reflexivity.
    - (* class *)
      intros h pos H0 F Hp Wh Sh Hg. cbn [hdes_ty des_ty].
      destruct (negb (s_expl si) && is_empty (TStruct si ms)).
      { cbn [hout]. split; [exact Hg|]. split; [reflexivity|]. split; [lia|]. split; [exact Sh|now left]. }
      destruct (as_bytes c (TStruct si ms)) eqn:Eb.
      + pose proof (as_bytes_bs _ _ Eb) as Hb.
        pose proof (des_bytes_safe G c data true true Hsm (TStruct si ms) [erase h] pos Hw Hb
          (flagged_all _) Hp ltac:(cbn [forallb]; now rewrite Wh)) as S. cbn [length] in S.
        destruct (des_bytes c data (TStruct si ms) 1 [erase h] pos) as [[r l] p].
        destruct S as (S1 & S2 & S3 & _). destruct l as [|x [|]]; try discriminate S2.
        cbn [hout]. rewrite own_bare, erase_bare. rewrite (bs_own G shared _ _ Hb Sh) in Hg.
        split; [exact Hg|]. split; [reflexivity|]. split; [lia|]. split; [|now left].
        apply bs_shaped; [exact Hb|]. cbn [forallb] in S3. now apply andb_true_iff in S3.
      + destruct h as [|[|] l| | | | | |]; try discriminate. cbn [erase as_seq has own app] in *.
        cbn [wt Heap.shaped] in Wh, Sh. cbn [wf] in Hw. rewrite !andb_true_iff in Hw.
        destruct Hw as [[_ Hw] _]. cbn [tall] in Ht. apply andb_true_iff in Ht as [_ Ht].
        cbn [tallP] in Hcp. destruct Hcp as [_ Hcp]. apply tallP_list in Hcp.
        assert (HF : Forall (fun m => hsafe_both m (hdes_ty ok G c data shared hrec m) (des_ty G c data rec m)) ms).
        { rewrite forallb_forall in *. rewrite Forall_forall in *. intros m Hin. split; [|auto].
          apply ty_safe; auto. }
        pose proof (hdes_many_ok ok G data shared _ _ ms HF l pos H0 F Hp Wh Sh Hg) as O.
        destruct (hdes_many _ _ _ _ _) as [[[r l'] p] H1]. destruct O as (O1 & O2 & O3 & O4 & O5).
        cbn [hout hseq_res seq_res own app erase].
        split; [exact O1|]. split; [exact O2|]. split; [exact O3|]. split; [exact O4|].
        destruct O5 as [<-|O5]; [now left|right; exact O5].
    - (* named class *)
      apply Hrec.
    - (* array *)
      intros h pos H0 F Hp Wh Sh Hg. destruct h as [|[|] l| | | | | |]; try discriminate.
      cbn [hdes_ty des_ty erase as_seq has own app] in *. cbn [wt Heap.shaped] in Wh, Sh.
      apply andb_true_iff in Wh as [Hn Wh]. cbn [wf] in Hw. apply andb_true_iff in Hw as [_ Hw].
      cbn [tall tallP] in *. apply andb_true_iff in Ht as [_ Ht]. destruct Hcp as [_ Hcp].
      apply hdes_elems_ok; auto.
      + apply as_bytes_bs.
      + split; [|auto]. apply ty_safe; auto.
      + intros l' Hl Hl'. cbn [wt]. rewrite map_length in *. now rewrite Hl, Hn, Hl'.
    - (* tuple *)
      intros h pos H0 F Hp Wh Sh Hg. destruct h as [|[|] l| | | | | |]; try discriminate.
      cbn [hdes_ty des_ty erase as_seq has own app] in *. cbn [wt Heap.shaped wf] in *.
      cbn [tall tallP] in *. apply andb_true_iff in Ht as [_ Ht]. destruct Hcp as [_ Hcp].
      apply tallP_list in Hcp.
      assert (HF : Forall (fun m => hsafe_both m (hdes_ty ok G c data shared hrec m) (des_ty G c data rec m)) ts).
      { rewrite forallb_forall in *. rewrite Forall_forall in *. intros m Hin. split; [|auto].
        apply ty_safe; auto. }
      pose proof (hdes_many_ok ok G data shared _ _ ts HF l pos H0 F Hp Wh Sh Hg) as O.
      destruct (hdes_many _ _ _ _ _) as [[[r l'] p] H1]. destruct O as (O1 & O2 & O3 & O4 & O5).
      cbn [hout hseq_res seq_res own app erase].
      split; [exact O1|]. split; [exact O2|]. split; [exact O3|]. split; [exact O4|].
      destruct O5 as [<-|O5]; [now left|right; exact O5].
    - (* vector, list *)
      intros h pos H0 F Hp Wh Sh Hg. destruct h as [|bs l| | | | | |]; try discriminate.
      cbn [hdes_ty des_ty erase as_seq has blocks own] in *.
      pose proof Sh as Sh0. cbn [wt Heap.shaped] in Wh, Sh. apply andb_true_iff in Sh as [Hb Sh].
      cbn [wf] in Hw. apply andb_true_iff in Hw as [Hs Hw]. apply (wfsz_sz_of c) in Hs; [|exact Hds].
      cbn [tall tallP] in *. apply andb_true_iff in Ht as [_ Ht]. destruct Hcp as [_ Hcp].
      assert (Hbs : as_bytes c t && cg = true -> Types.bs t = true)
        by (intro E; apply andb_true_iff in E as [E _]; eapply as_bytes_bs; eauto).
      assert (Hbt : hsafe_both t (hdes_ty ok G c data shared hrec t) (des_ty G c data rec t))
        by (split; [apply ty_safe; auto|auto]).
      assert (E : forall sz, wfsz (Some sz) = true ->
        hout (TVec s cg t) pos H0 F
          match des_size c data sz pos with
          | (ROk, n, pos') =>
              match hvec_resize ok c t cg (bare (dflt G t)) n bs l H0 with
              | (ROk, bs, l, H') =>
                  hdes_elems c data (as_bytes c t && cg) (hdes_ty ok G c data shared hrec t) t bs l pos' H'
              | (r, bs, l, H') => (r, HSeq bs l, pos', H')
              end
          | (r, _, pos') => (r, HSeq bs l, pos', H0)
          end
          match des_size c data sz pos with
          | (ROk, n, pos') =>
              match vec_resize G c t n (map erase l) with
              | (ROk, l) => des_elems c data (as_bytes c t && cg) (des_ty G c data rec t) t l pos'
              | (r, l) => (r, VSeq l, pos')
              end
          | (r, _, pos') => (r, VSeq (map erase l), pos')
          end).
      { intros sz Hsz. pose proof (des_size_safe c sz Hsz data pos Hsm Hp) as S. cbn beta in S.
        destruct (des_size c data sz pos) as [[r n] p].
        destruct r; try (cbn [hout own erase]; split; [exact Hg|]; split; [reflexivity|]; split; [lia|];
          split; [exact Sh0|now left]).
        destruct S as [S1 S2].
        pose proof (hvec_resize_ok s cg t n bs l H0 F Sh0 Hg
          (dflt_shaped G shared t HB (tracked_bare _ Ht))) as V.
        destruct (hvec_resize _ _ _ _ _ _ _ _ _) as [[[r bs'] l'] H1].
        destruct V as (V1 & V2 & V3 & V4 & V5).
        destruct V5 as [V5|(-> & R & ->)].
        2:{ cbn [hout own erase]. split; [exact V1|]. split; [exact V2|]. split; [exact V3|].
            split; [exact V4|]. right. split; [reflexivity|]. split; [exact R|]. split; [lia|exact Wh]. }
        symmetry in V5. pose proof (vec_resize_wt G c true true HG t n _ _ _ Hw Wh V5) as (W1 & _ & W3).
        rewrite V5.
        destruct r; try (cbn [hout own erase]; split; [exact V1|]; split; [exact V2|]; split; [exact V3|];
          split; [exact V4|now left]).
        cbn [Heap.shaped] in V4. apply andb_true_iff in V4 as [V4 V6].
        apply hout_weaken with p; [lia|].
        assert (Q : hout (TVec s cg t) p H1 F
          (hdes_elems c data (as_bytes c t && cg) (hdes_ty ok G c data shared hrec t) t bs' l' p H1)
          (des_elems c data (as_bytes c t && cg) (des_ty G c data rec t) t (map erase l') p)).
        { apply hdes_elems_ok; auto; [lia|].
          intros l2 L2 K2. cbn [Heap.shaped]. rewrite L2, K2, V4. reflexivity. }
        destruct (hdes_elems _ _ _ _ _ _ _ _ _) as [[[rq hq] pq] Hq]. cbn [hout] in *.
        destruct Q as (Q1 & Q2 & Q3 & Q4 & Q5). split; [exact Q1|]. split; [congruence|].
        split; [lia|]. split; [exact Q4|]. destruct Q5 as [Q5|(Q5 & Q6 & Q7)]; [now left|right].
        split; [exact Q5|]. split; [eapply refused_l; [|exact Q6]; lia|exact Q7]. }
      destruct (sz_of c s) eqn:Es; [|apply E; exact Hs..].
      apply hdes_elems_ok; auto.
      intros l2 L2 K2. cbn [Heap.shaped]. rewrite L2, K2, Hb. reflexivity.
    - (* set, map *)
      intros h pos H0 F Hp Wh Sh Hg. destruct h as [|bs l| | | | | |]; try discriminate.
      cbn [hdes_ty des_ty erase as_seq has] in *. rewrite map_length.
      cbn [wf] in Hw. apply andb_true_iff in Hw as [Hs Hw]. apply (wfsz_sz_of c) in Hs; [|exact Hds].
      cbn [tall tallP] in *. apply andb_true_iff in Ht as [_ Ht]. destruct Hcp as [Hk Hcp].
      assert (Hbt : hsafe_both t (hdes_ty ok G c data shared hrec t) (des_ty G c data rec t))
        by (split; [apply ty_safe; auto|auto]).
      assert (L : forall n p, (pos <= p <= length data)%nat ->
        hout (TAssoc s k t) pos H0 F
          match hdes_assoc ok (hdes_ty ok G c data shared hrec t) k (bare (dflt G t)) n [] [] p
                  (destroy (HSeq bs l) H0) with
          | (r, bs, l, pos'', H') => (r, HSeq bs l, pos'', H')
          end
          (seq_res (des_assoc (des_ty G c data rec t) (assoc_insert k) (dflt G t) n [] p))).
      { intros n p Hpp.
        destruct (destroy_good (HSeq bs l) H0 [] F ltac:(now rewrite app_nil_r)) as (D1 & D2 & D3).
        pose proof (hdes_assoc_ok ok G data shared _ _ s k t (dflt G t) Hk Hbt (wt_dflt G t HG Hw)
          (dflt_shaped G shared t HB (tracked_bare _ Ht)) n [] [] p _ F ltac:(lia) eq_refl eq_refl D1) as O.
        destruct (hdes_assoc _ _ _ _ _ _ _ _ _) as [[[[r bs'] l'] p'] H1].
        destruct O as (O1 & O2 & O3 & O4 & O5). cbn [hout own erase map] in *.
        split; [exact O1|]. split; [congruence|]. split; [lia|]. split; [exact O4|].
        destruct O5 as [<-|(-> & R & Rg & W)]; [now left|right].
        split; [reflexivity|]. split; [eapply refused_l; [|exact R]; lia|]. split; [lia|exact W]. }
      pose proof (des_size_safe c (sz_of c s) Hs data pos Hsm Hp) as S. cbn beta in S.
      destruct (sz_of c s) eqn:Es; [apply L; lia|..];
        (destruct (des_size _ _ _ _) as [[r n] p]; destruct r; try tauto;
          [apply L; lia|cbn [hout erase]; split; [exact Hg|]; split; [reflexivity|]; split; [lia|];
            split; [exact Sh|now left]]).
    - (* optional *)
      intros h pos H0 F Hp Wh Sh Hg. cbn [hdes_ty des_ty wf] in *. cbn [tall tallP] in *.
      apply andb_true_iff in Ht as [_ Ht]. destruct Hcp as [_ Hcp].
      pose proof (des_scalar_safe c 1 0 data pos Hsm Hp) as S. cbn beta in S. unfold des_flag.
      destruct (des_scalar c data 1 0 pos) as [[r n'] p]. destruct r; try tauto.
      2:{ cbn [hout]. split; [exact Hg|]. split; [reflexivity|]. split; [lia|]. split; [exact Sh|now left]. }
      destruct n' as [|q].
      { destruct (destroy_good h H0 [] F ltac:(now rewrite app_nil_r)) as (D1 & D2 & D3).
        cbn [hout own]. split; [exact D1|]. split; [exact D2|]. split; [lia|]. split; [reflexivity|now left]. }
      apply hout_weaken with p; [lia|].
      replace (opt_cur (erase h)) with (option_map erase (hopt_cur h)) by (destruct h; reflexivity).
      eapply hdes_inplace_ok with (t' := t); auto.
      + split; [|auto]. apply ty_safe; auto.
      + now apply wt_dflt.
      + apply dflt_shaped; [exact HB|now apply tracked_bare].
      + intros x Hx. destruct h as [| | |[|] y| | | |]; try discriminate. injection Hx as <-. auto.
      + lia.
    - (* optional_ptr *)
      intros h pos H0 F Hp Wh Sh Hg. cbn [hdes_ty des_ty wf] in *. cbn [tall tallP] in *.
      apply andb_true_iff in Ht as [_ Ht]. destruct Hcp as [_ Hcp].
      pose proof (des_scalar_safe c 1 0 data pos Hsm Hp) as S. cbn beta in S. unfold des_flag.
      destruct (des_scalar c data 1 0 pos) as [[r n'] p]. destruct r; try tauto.
      2:{ cbn [hout]. split; [exact Hg|]. split; [reflexivity|]. split; [lia|]. split; [exact Sh|now left]. }
      destruct n' as [|q].
      { destruct (destroy_good h H0 [] F ltac:(now rewrite app_nil_r)) as (D1 & D2 & D3).
        cbn [hout own]. split; [exact D1|]. split; [exact D2|]. split; [lia|]. split; [reflexivity|now left]. }
      apply hout_weaken with p; [lia|].
      eapply hdes_ptr_ok with (t' := t); auto.
      + split; [|auto]. apply ty_safe; auto.
      + now apply wt_dflt.
      + apply dflt_shaped; [exact HB|now apply tracked_bare].
      + intros bs x Hl Hx. cbn [Heap.shaped]. rewrite Hl, Hx. reflexivity.
      + lia.
    - (* owning pointer *)
      intros h pos H0 F Hp Wh Sh Hg. cbn [hdes_ty des_ty wf] in *. cbn [tall tallP] in *.
      apply andb_true_iff in Ht as [_ Ht]. destruct Hcp as [_ Hcp].
      eapply hdes_ptr_ok with (t' := t); auto.
      + split; [|auto]. apply ty_safe; auto.
      + now apply wt_dflt.
      + apply dflt_shaped; [exact HB|now apply tracked_bare].
      + intros bs x Hl Hx. cbn [Heap.shaped]. rewrite Hl, Hx. now destruct (shared t).
    - (* variant *)
      intros h pos H0 F Hp Wh Sh Hg. rewrite hdes_variant_eq, des_variant_eq.
      cbn [tall tallP] in *. apply andb_true_iff in Ht as [_ Ht].
      destruct Hcp as [_ Hcp]. apply tallP_list in Hcp.
      cbn [wf] in Hw. rewrite !andb_true_iff in Hw. destruct Hw as [[[[Hl Hm] Hd] Hi] Hw].
      pose proof (des_id_safe c ik data pos Hsm Hp) as S. cbn beta in S.
      destruct (des_id _ _ _ _) as [[r n'] p]. destruct r; try tauto.
      2:{ cbn [hout]. split; [exact Hg|]. split; [reflexivity|]. split; [lia|]. split; [exact Sh|now left]. }
      destruct (find_id meta n') as [i|] eqn:Ef.
      2:{ cbn [hout]. split; [exact Hg|]. split; [reflexivity|]. split; [lia|]. split; [exact Sh|now left]. }
      apply find_id_some in Ef as [dc Ef].
      assert (Hi' : (i < length alts)%nat).
      { apply Nat.eqb_eq in Hm. rewrite <- Hm. apply nth_error_Some. congruence. }
      destruct (nth_error alts i) as [t'|] eqn:Ea; [|now apply nth_error_None in Ea; lia].
      apply hout_weaken with p; [lia|].
      pose proof (nth_error_In _ _ Ea) as Hin.
      rewrite forallb_forall in Hw, Ht. rewrite Forall_forall in H, Hcp.
      replace (active i (erase h)) with (option_map erase (hactive i h))
        by (destruct h; try reflexivity; cbn [hactive erase active]; now destruct (i =? i0)%nat).
      eapply hdes_inplace_ok with (t' := t'); auto.
      + split; [|auto]. apply ty_safe; auto.
      + apply wt_dflt; auto.
      + apply dflt_shaped; [exact HB|apply tracked_bare; auto].
      + intros x Hx. destruct h as [| | | |j y| | |]; try discriminate. cbn [hactive] in Hx.
        destruct (Nat.eqb_spec i j) as [->|]; [|discriminate]. injection Hx as <-.
        cbn [wt Heap.shaped erase] in Wh, Sh. rewrite Ea in Wh, Sh. auto.
      + intros x Hx. cbn [wt]. now rewrite Ea.
      + intros x Hx. cbn [Heap.shaped]. now rewrite Ea.
      + lia.
    - apply (hleaf_ok _ _) in Self; [exact Self|intros []; try discriminate; reflexivity..].
    - destruct k; (apply (hleaf_ok _ _) in Self; [exact Self|intros []; try discriminate; reflexivity..]).
    - cbn [tall] in Ht. unfold tracked in Ht. cbn [no_span andb] in Ht. discriminate.
  Qed.
End HeapTy.

Section HeapRec.
  Variables (ok : nat -> bool) (G : tenv) (c : cfg) (data : list byte) (shared : ty -> bool).
  Hypothesis (Hsm : small data) (HG : wf_env G) (Hds : wfsz (Some (dsize c)) = true).
  Hypothesis (HB : bare_env G shared) (Hcmp : tallP_env (cmp_ok G) G).
  Hypothesis (HT : tall_env (tracked G shared) G).
  Notation hsafe_both := (hsafe_both ok G data shared).

  Lemma hdes_rec_ok fuel : forall k,
    hsafe_both (TRec k) (hdes_rec ok G c data shared fuel k) (des_rec G c data fuel k).
  Proof.
    induction fuel as [|f IH]; intro k.
    - split.
      + apply des_rec_safe; auto. intro k0. rewrite forallb_forall. intros t _. apply flagged_all.
      + intros h pos H F Hp Wh Sh Hg. cbn [hdes_rec des_rec hout].
        split; [exact Hg|]. split; [reflexivity|]. split; [lia|]. split; [exact Sh|now left].
    - split.
      + apply des_rec_safe; auto. intro k0. rewrite forallb_forall. intros t _. apply flagged_all.
      + intros h pos H F Hp Wh Sh Hg. cbn [hdes_rec des_rec].
        destruct h as [|[|] l| | | | | |]; try discriminate. cbn [erase as_seq has own app] in *.
        cbn [wt shaped] in Wh, Sh.
        assert (HF : Forall (fun m => hsafe_both m
          (hdes_ty ok G c data shared (hdes_rec ok G c data shared f) m)
          (des_ty G c data (des_rec G c data f) m)) (t_mems G k)).
        { rewrite Forall_forall. intros m Hin. apply hdes_ty_ok; auto.
          - destruct (HG k) as [Hw _]. rewrite forallb_forall in Hw. auto.
          - specialize (Hcmp k). rewrite Forall_forall in Hcmp. auto.
          - specialize (HT k). rewrite forallb_forall in HT. auto. }
        pose proof (hdes_many_ok ok G data shared _ _ _ HF l pos H F Hp Wh Sh Hg) as O.
        destruct (hdes_many _ _ _ _ _) as [[[r l'] p] H1]. destruct O as (O1 & O2 & O3 & O4 & O5).
        cbn [hout hseq_res seq_res own app erase].
        split; [exact O1|]. split; [exact O2|]. split; [exact O3|]. split; [exact O4|].
        destruct O5 as [<-|O5]; [now left|right; exact O5].
  Qed.

  Lemma hin_call_ok fuel ts :
    forallb (wf G) ts = true -> Forall (tallP (cmp_ok G)) ts -> forallb (tall (tracked G shared)) ts = true ->
    forall priors pos H F, (pos <= length data)%nat ->
      forall2b (fun x m => wt G x m) (map erase priors) ts = true ->
      forall2b (fun x m => shaped G shared x m) priors ts = true ->
      good H (flat_map own priors) F ->
      match hin_call ok G c data shared fuel ts priors pos H with (r, l, p, H') =>
        good H' (flat_map own l) F /\ hbad H' = hbad H /\ (hnext H <= hnext H')%nat /\
        forall2b (fun x m => shaped G shared x m) l ts = true /\
        ((r, map erase l, p) = in_call G c data fuel ts (map erase priors) pos
         \/ r = RThrow /\ refused ok H H' /\ (pos <= p <= length data)%nat
            /\ forall2b (fun x m => wt G x m) (map erase l) ts = true)
      end.
  Proof.
    intros H1 H2 H3. apply hdes_many_ok. rewrite forallb_forall in *. rewrite Forall_forall in *.
    intros m Hin. apply hdes_ty_ok; auto. intro k. apply hdes_rec_ok.
  Qed.
End HeapRec.
