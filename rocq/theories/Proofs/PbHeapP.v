(** Ownership of heap memory while reading protobuf messages (Model/PbHeap.v). *)

From Coq Require Import List NArith ZArith Lia Bool Arith.
From Coq Require Import ZifyBool ZifyNat ZifyN.
From Verif Require Import Base.Bytes Model.Types Model.Machine Model.Varint Model.Out Model.In
  Model.Loops Model.Protocol Model.Pb Model.Heap Model.PbHeap
  Spec.Leb128 Spec.Wire Proofs.VarintP Proofs.OutP Proofs.InBase Proofs.InSafe Proofs.ProtoP Proofs.PbOut
  Proofs.PbIn Proofs.HeapP Proofs.HeapLoud.
Import ListNotations.
Local Open Scope N_scope.

Section Grants.
  Variable ok : nat -> bool.

  (** All allocations made between the two states were granted; all but the last one, which was not. *)
  Definition calm (H H' : heap) : Prop := (hnext H <= hnext H')%nat /\ granted ok (hnext H) (hnext H').
  Definition stopped (H H' : heap) : Prop :=
    exists n, hnext H' = S n /\ (hnext H <= n)%nat /\ granted ok (hnext H) n /\ ok n = false.

  Lemma calm_refl H : calm H H.
  Proof. split; [lia|]. intros n Hn. lia. Qed.

  Lemma calm_trans H1 H2 H3 : calm H1 H2 -> calm H2 H3 -> calm H1 H3.
  Proof. intros [A1 A2] [B1 B2]. split; [lia|]. eapply granted_trans; eauto. Qed.

  Lemma calm_stopped H1 H2 H3 : calm H1 H2 -> stopped H2 H3 -> stopped H1 H3.
  Proof.
    intros [A1 A2] (n & E & L & G & F). exists n. split; [exact E|]. split; [lia|].
    split; [eapply granted_trans; eauto|exact F].
  Qed.

  Lemma calm_next H H' H2 : hnext H2 = hnext H' -> calm H H' -> calm H H2.
  Proof. unfold calm. now intros ->. Qed.
  Lemma stopped_next H H' H2 : hnext H2 = hnext H' -> stopped H H' -> stopped H H2.
  Proof. unfold stopped. now intros ->. Qed.

  Lemma alloc_step H o F : good H o F ->
    match alloc ok H with
    | (Some b, H') => good H' (b :: o) F /\ hbad H' = hbad H /\ calm H H'
    | (None, H') => good H' o F /\ hbad H' = hbad H /\ stopped H H'
    end.
  Proof.
    intro HG. pose proof (alloc_good ok H o F HG) as A. pose proof (alloc_loud ok H) as L.
    destruct (alloc ok H) as [[b|] H'].
    - destruct A as (A1 & A2 & A3). destruct L as [L [G|[E _]]]; [|discriminate]. repeat split; try apply A1; auto.
    - destruct A as (A1 & A2 & A3 & (k & Hk & Ek)). split; [exact A1|]. split; [exact A2|].
      destruct L as [L [G|[_ S]]]; [|exact S]. rewrite (G k Hk) in Ek. discriminate.
  Qed.

  Lemma alloc_n_step n H o F : good H o F ->
    match alloc_n ok n H with
    | (Some bs, H') => good H' (bs ++ o) F /\ hbad H' = hbad H /\ calm H H' /\ length bs = n
    | (None, H') => good H' o F /\ hbad H' = hbad H /\ stopped H H'
    end.
  Proof.
    intro HG. pose proof (alloc_n_good ok n H o F HG) as A. pose proof (alloc_n_loud ok n H) as L.
    destruct (alloc_n ok n H) as [[bs|] H'].
    - destruct A as (A1 & A2 & A3 & A4). destruct L as [L [G|[E _]]]; [|discriminate].
      repeat split; try apply A1; auto.
    - destruct A as (A1 & A2 & A3 & (k & Hk & Ek)). split; [exact A1|]. split; [exact A2|].
      destruct L as [L [G|[_ S]]]; [|exact S]. rewrite (G k Hk) in Ek. discriminate.
  Qed.

  Variable room : nat -> N.

  Lemma rebuffer_step bs H o F : good H (bs ++ o) F ->
    match rebuffer ok bs H with
    | (Some bs', H') => good H' (bs' ++ o) F /\ hbad H' = hbad H /\ calm H H' /\ length bs' = 1%nat
    | (None, H') => good H' (bs ++ o) F /\ hbad H' = hbad H /\ stopped H H'
    end.
  Proof.
    intro HG. unfold rebuffer. pose proof (alloc_step H _ F HG) as A. destruct (alloc ok H) as [[b|] H']; [|exact A].
    destruct A as (A1 & A2 & A3).
    assert (X : good H' (bs ++ [b] ++ o) F) by (eapply good_perm; [|exact A1]; perm).
    apply free_all_good in X as (X1 & X2 & X3). split; [exact X1|]. split; [congruence|].
    split; [now apply calm_next with H'|reflexivity].
  Qed.

  (** Adding an object to a container. *)
  Definition added (ins : list val -> val -> list val) (shp : list nat -> list hval -> bool)
    (l : list hval) (x : hval) (H : heap) (F : nat -> nat) (r : res * list nat * list hval * heap) : Prop :=
    match r with (r, bs', l', H') =>
      good H' (bs' ++ flat_map own l') F /\ hbad H' = hbad H /\ shp bs' l' = true /\
      (forall y, In y l' -> In y l \/ y = x) /\
      (r = ROk /\ map erase l' = ins (map erase l) (erase x) /\ calm H H'
       \/ r = RThrow /\ l' = l /\ stopped H H')
    end.

  Lemma set_added k bs l x H F b H' :
    negb (a_multi k) && existsb (fun y => equivalent k (erase y) (erase x)) l = false ->
    (length bs =? length l)%nat = true ->
    good H' (b :: bs ++ flat_map own l ++ own x) F -> hbad H' = hbad H -> calm H H' ->
    added (assoc_insert k) (fun bs l => length bs =? length l)%nat l x H F (ROk, b :: bs, hplace k l x, H').
  Proof.
    intros Ed Hs A1 A2 A3. split; [|split; [exact A2|split; [|split]]].
    - eapply good_perm; [|exact A1]. intro q. cbn [app]. rewrite !cnt_cons, !cnt_app, (hplace_own ok), cnt_app. lia.
    - cbn [length]. rewrite hplace_length. lia.
    - intros y Hy. apply hplace_in in Hy as [<-|Hy]; auto.
    - left. split; [reflexivity|]. split; [|exact A3]. now apply erase_hplace.
  Qed.

  Lemma set_kept k bs l x H F H' :
    negb (a_multi k) && existsb (fun y => equivalent k (erase y) (erase x)) l = true ->
    (length bs =? length l)%nat = true ->
    good H' (bs ++ flat_map own l) F -> hbad H' = hbad H -> calm H H' ->
    added (assoc_insert k) (fun bs l => length bs =? length l)%nat l x H F (ROk, bs, l, H').
  Proof.
    intros Ed Hs A1 A2 A3. split; [exact A1|]. split; [exact A2|]. split; [exact Hs|]. split; [auto|]. left.
    split; [reflexivity|]. split; [|exact A3]. unfold assoc_insert. now rewrite existsb_erase, Ed.
  Qed.

  Lemma added_throw ins shp bs l x H F H1 :
    shp bs l = true -> good H1 (bs ++ flat_map own l ++ own x) F -> hbad H1 = hbad H -> stopped H H1 ->
    added ins shp l x H F (RThrow, bs, l, destroy x H1).
  Proof.
    intros Hs A1 A2 A3.
    assert (X : good H1 (own x ++ bs ++ flat_map own l) F) by (eapply good_perm; [|exact A1]; perm).
    apply destroy_good in X as (X1 & X2 & X3). split; [exact X1|]. split; [congruence|]. split; [exact Hs|].
    split; [auto|]. right. split; [reflexivity|]. split; [reflexivity|]. now apply stopped_next with H1.
  Qed.

  Lemma hadd_ok ck bs l x H F :
    ckshape ck bs l = true -> good H (bs ++ flat_map own l ++ own x) F ->
    added (cinsert ck) (ckshape ck) l x H F (hadd ok room ck bs l x H).
  Proof.
    intros Hs HG.
    assert (Eo : forall bs', (forall b, cnt b (bs' ++ flat_map own l ++ own x)
      = cnt b (bs' ++ flat_map own (l ++ [x])))).
    { intros bs' b. rewrite flat_map_app. cbn [flat_map]. now rewrite app_nil_r. }
    assert (Hin : forall y, In y (l ++ [x]) -> In y l \/ y = x).
    { intros y Hy. apply in_app_iff in Hy as [Hy|[<-|[]]]; auto. }
    assert (Er : map erase (l ++ [x]) = map erase l ++ [erase x]) by now rewrite map_app.
    destruct ck as [[|] rsv|k rsv]; cbn [hadd].
    - destruct (fits room bs _).
      + split; [eapply good_perm; [|exact HG]; apply Eo|]. split; [reflexivity|]. split; [exact Hs|].
        split; [exact Hin|]. left. split; [reflexivity|]. split; [exact Er|apply calm_refl].
      + pose proof (rebuffer_step bs H _ F HG) as A. destruct (rebuffer ok bs H) as [[bs'|] H1].
        * destruct A as (A1 & A2 & A3 & A4). split; [eapply good_perm; [|exact A1]; apply Eo|].
          split; [exact A2|]. split; [cbn [ckshape]; lia|]. split; [exact Hin|]. left. auto.
        * destruct A as (A1 & A2 & A3). now apply added_throw.
    - pose proof (alloc_step H _ F HG) as A. destruct (alloc ok H) as [[b|] H1].
      + destruct A as (A1 & A2 & A3). split.
        { eapply good_perm; [|exact A1]. intro q. rewrite cnt_cons, Eo, !cnt_app, cnt_cons, cnt_nil. lia. }
        split; [exact A2|]. split; [cbn [ckshape] in *; rewrite !app_length; cbn [length]; lia|].
        split; [exact Hin|]. left. auto.
      + destruct A as (A1 & A2 & A3). now apply added_throw.
    - destruct (negb (a_multi k) && _) eqn:Ed.
      + assert (X : good H (own x ++ bs ++ flat_map own l) F) by (eapply good_perm; [|exact HG]; perm).
        apply destroy_good in X as (X1 & X2 & X3). apply (set_kept k); auto.
        apply calm_next with H; [exact X3|apply calm_refl].
      + pose proof (alloc_step H _ F HG) as A. destruct (alloc ok H) as [[b|] H1].
        * destruct A as (A1 & A2 & A3). now apply (set_added k).
        * destruct A as (A1 & A2 & A3). now apply added_throw.
  Qed.

  Lemma hemplace_ok k bs l x H F :
    (length bs =? length l)%nat = true -> good H (bs ++ flat_map own l ++ own x) F ->
    added (assoc_insert k) (fun bs l => length bs =? length l)%nat l x H F (hemplace ok k bs l x H).
  Proof.
    intros Hs HG. unfold hemplace. pose proof (alloc_step H _ F HG) as A. destruct (alloc ok H) as [[b|] H1].
    - destruct A as (A1 & A2 & A3). destruct (negb (a_multi k) && _) eqn:Ed; [|now apply (set_added k)].
      assert (X : good H1 (own x ++ b :: bs ++ flat_map own l) F) by (eapply good_perm; [|exact A1]; perm).
      apply destroy_good in X as (X1 & X2 & X3). apply free_good in X1 as (Y1 & Y2 & Y3).
      apply set_kept; auto; [congruence|]. apply calm_next with H1; [congruence|exact A3].
    - destruct A as (A1 & A2 & A3). now apply added_throw.
  Qed.

  Lemma own_nums l : forallb is_num l = true -> flat_map own l = [].
  Proof.
    induction l as [|x l IH]; [reflexivity|]. cbn [forallb flat_map]. intro E.
    apply andb_true_iff in E as [E1 E2]. destruct x; try discriminate. now apply IH.
  Qed.

  Lemma nums_bare w l : forallb (numok w) l = true -> forallb is_num (map bare l) = true.
  Proof.
    induction l as [|x l IH]; [reflexivity|]. cbn [forallb map]. intro E.
    apply andb_true_iff in E as [E1 E2]. destruct x; try discriminate. now apply IH.
  Qed.

  Lemma hreserve_ok c ck n bs l H F :
    ckshape ck bs l = true -> good H (bs ++ flat_map own l) F ->
    match hreserve ok room c ck n bs l H with (r, bs', H') =>
      good H' (bs' ++ flat_map own l) F /\ hbad H' = hbad H /\ ckshape ck bs' l = true /\
      (r = (if reserve_ok c ck n (map erase l) then ROk else RThrow) /\ calm H H' \/ r = RThrow /\ stopped H H')
    end.
  Proof.
    intros Hs HG. unfold hreserve. destruct (reserve_ok c ck n (map erase l)).
    2:{ split; [exact HG|]. split; [reflexivity|]. split; [exact Hs|]. left. split; [reflexivity|apply calm_refl]. }
    assert (Z : good H (bs ++ flat_map own l) F /\ hbad H = hbad H /\ ckshape ck bs l = true /\
      (ROk = ROk /\ calm H H \/ ROk = RThrow /\ stopped H H)).
    { split; [exact HG|]. split; [reflexivity|]. split; [exact Hs|]. left. split; [reflexivity|apply calm_refl]. }
    destruct ck as [[|] [z|]|k rsv]; try exact Z. destruct (_ || _); [exact Z|].
    pose proof (rebuffer_step bs H _ F HG) as A. destruct (rebuffer ok bs H) as [[bs'|] H1].
    - destruct A as (A1 & A2 & A3 & A4). split; [exact A1|]. split; [exact A2|]. split; [cbn [ckshape]; lia|auto].
    - destruct A as (A1 & A2 & A3). split; [exact A1|]. split; [exact A2|]. split; [exact Hs|]. auto.
  Qed.

  Lemma hresize_ok c ct rsv w n bs l H F :
    ckshape (CSeq ct rsv) bs l = true -> forallb is_num l = true -> good H bs F ->
    match hresize ok room c ct w n bs l H with (r, bs', l', H') =>
      good H' bs' F /\ hbad H' = hbad H /\ ckshape (CSeq ct rsv) bs' l' = true /\ forallb is_num l' = true /\
      (r = ROk /\ (n <=? N.of_nat (length l)) || can_alloc c (n * N.of_nat w) = true /\
         map erase l' = vresize (VN 0) (N.to_nat n) (map erase l) /\ calm H H'
       \/ r = RThrow /\ l' = l /\ (n <=? N.of_nat (length l)) || can_alloc c (n * N.of_nat w) = false /\ calm H H'
       \/ r = RThrow /\ l' = l /\ stopped H H')
    end.
  Proof.
    intros Hs Hn HG. unfold hresize.
    set (l' := firstn (N.to_nat n) l ++ repeat (HN 0) (N.to_nat n - length l)).
    assert (El : map erase l' = vresize (VN 0) (N.to_nat n) (map erase l)).
    { unfold l', vresize. rewrite map_app, map_length, firstn_map. f_equal.
      induction (N.to_nat n - length l)%nat as [|m IH]; [reflexivity|]. cbn [repeat map]. now rewrite IH. }
    assert (Hn' : forallb is_num l' = true).
    { unfold l'. rewrite forallb_app. apply andb_true_iff. split.
      - rewrite <- (firstn_skipn (N.to_nat n) l), forallb_app in Hn. now apply andb_true_iff in Hn.
      - apply forallb_forall. intros x Hx. apply repeat_spec in Hx. now subst x. }
    assert (Ll : length l' = N.to_nat n).
    { unfold l'. rewrite app_length, firstn_length, repeat_length. lia. }
    destruct (N.leb_spec n (N.of_nat (length l))) as [Hl|Hl]; cbn [orb].
    - destruct ct.
      + split; [exact HG|]. split; [reflexivity|]. split; [exact Hs|]. split; [exact Hn'|]. left.
        split; [reflexivity|]. split; [reflexivity|]. split; [exact El|apply calm_refl].
      + assert (X : good H (skipn (N.to_nat n) bs ++ firstn (N.to_nat n) bs) F).
        { eapply good_perm; [|exact HG]. intro b. rewrite <- (firstn_skipn (N.to_nat n) bs) at 1. rewrite !cnt_app. lia. }
        apply free_all_good in X as (X1 & X2 & X3). split; [exact X1|]. split; [exact X2|]. split.
        { cbn [ckshape] in *. rewrite firstn_length, Ll. lia. }
        split; [exact Hn'|]. left. split; [reflexivity|]. split; [reflexivity|]. split; [exact El|].
        apply calm_next with H; [exact X3|apply calm_refl].
    - destruct (can_alloc c _).
      2:{ split; [exact HG|]. split; [reflexivity|]. split; [exact Hs|]. split; [exact Hn|]. right. left.
          repeat split; auto. apply calm_refl. }
      destruct ct.
      + destruct (fits room bs n).
        { split; [exact HG|]. split; [reflexivity|]. split; [exact Hs|]. split; [exact Hn'|]. left.
          split; [reflexivity|]. split; [reflexivity|]. split; [exact El|apply calm_refl]. }
        assert (HG' : good H (bs ++ []) F) by now rewrite app_nil_r.
        pose proof (rebuffer_step bs H _ F HG') as A. destruct (rebuffer ok bs H) as [[bs'|] H1];
          rewrite app_nil_r in A.
        * destruct A as (A1 & A2 & A3 & A4). split; [exact A1|]. split; [exact A2|]. split; [cbn [ckshape]; lia|].
          split; [exact Hn'|]. left. auto.
        * destruct A as (A1 & A2 & A3). split; [exact A1|]. split; [exact A2|]. split; [exact Hs|].
          split; [exact Hn|]. auto 6.
      + pose proof (alloc_n_step (N.to_nat n - length l) H _ F HG) as A.
        destruct (alloc_n ok _ H) as [[new|] H1].
        * destruct A as (A1 & A2 & A3 & A4). split; [eapply good_perm; [|exact A1]; perm|]. split; [exact A2|].
          split; [cbn [ckshape] in *; rewrite app_length, Ll; lia|]. split; [exact Hn'|]. left. auto.
        * destruct A as (A1 & A2 & A3). split; [exact A1|]. split; [exact A2|]. split; [exact Hs|].
          split; [exact Hn|]. auto 6.
  Qed.
End Grants.

Lemma map_set_nth {A B} (f : A -> B) i x : forall l, map f (set_nth i x l) = set_nth i (f x) (map f l).
Proof. revert x. induction i as [|i IH]; intros x [|y l]; cbn [set_nth map]; try reflexivity. now rewrite IH. Qed.

Lemma own_set_nth i : forall l x, nth_error l i = Some x ->
  exists o, forall y b, cnt b (flat_map own (set_nth i y l)) = (cnt b (own y) + cnt b o)%nat.
Proof.
  induction i as [|i IH]; intros [|a l] x E; try discriminate; cbn [nth_error] in E.
  - exists (flat_map own l). intros y b. cbn [set_nth flat_map]. apply cnt_app.
  - destruct (IH l x E) as (o & Ho). exists (own a ++ o). intros y b. cbn [set_nth flat_map].
    rewrite !cnt_app, Ho. lia.
Qed.

Lemma set_nth_same {A} i : forall (l : list A) x, nth_error l i = Some x -> set_nth i x l = l.
Proof.
  induction i as [|i IH]; intros [|a l] x E; try discriminate; cbn [nth_error set_nth] in *; [congruence|].
  now rewrite (IH l x E).
Qed.

Section PbHeapIn.
  Variables (ok : nat -> bool) (room : nat -> N) (P : penv).
  Hypothesis HP : wf_penv P.

  (** The outcome of a read of a member at [pos] of [n] bytes, with and without memory. *)
  Definition phout (t : pty) (n pos : nat) (H : heap) (F : nat -> nat) (x : hres) (y : dres) : Prop :=
    match x with (r, h, p, H') =>
      good H' (own h) F /\ hbad H' = hbad H /\ pshaped P h t = true /\
      ((r, erase h, p) = y /\ calm ok H H'
       \/ r = RThrow /\ stopped ok H H' /\ (pos <= p <= n)%nat /\ pwt P (erase h) t = true)
    end.

  Definition types_ok (l : list hval) (ts : list pty) : Prop :=
    forall2b (fun x t => pwt P x t) (map erase l) ts = true /\ forall2b (fun x t => pshaped P x t) l ts = true.

  Definition fhout (ts : list pty) (n : nat) (H : heap) (F : nat -> nat) (x : res * list hval * nat * heap)
    (y : res * list val * nat) : Prop :=
    match x with (r, l, p, H') =>
      good H' (flat_map own l) F /\ hbad H' = hbad H /\ forall2b (fun x t => pshaped P x t) l ts = true /\
      ((r, map erase l, p) = y /\ calm ok H H'
       \/ r = RThrow /\ stopped ok H H' /\ (p <= n)%nat /\ forall2b (fun x t => pwt P x t) (map erase l) ts = true)
    end.

  Lemma pshaped_snd l fs :
    forall2b (fun x (fd : pfield) => pshaped P x (snd fd)) l fs = forall2b (fun x t => pshaped P x t) l (map snd fs).
  Proof. apply (forall2b_snd (fun x t => pshaped P x t)). Qed.

  Lemma pshaped_msg k h : pshaped P h (PMsg k) = true ->
    exists l, h = HSeq [] l /\ forall2b (fun x t => pshaped P x t) l (map snd (m_fields (P k))) = true.
  Proof.
    destruct h as [|[|] l| | | | | |]; try discriminate. cbn [pshaped]. rewrite pshaped_snd. eauto.
  Qed.

  Lemma hfield_loop_ok data nums ts hfld fld :
    (forall i n, nth_error nums i = Some n -> nth_error ts i <> None) ->
    (forall i t wt prior pos, nth_error ts i = Some t -> pwt P prior t = true ->
       (0 < pos <= length data)%nat -> psafe P true t (length data) pos (fld i wt prior pos)) ->
    (forall i t wt h pos H F, nth_error ts i = Some t -> pwt P (erase h) t = true -> pshaped P h t = true ->
       (0 < pos <= length data)%nat -> good H (own h) F ->
       phout t (length data) pos H F (hfld i wt h pos H) (fld i wt (erase h) pos)) ->
    forall n vals pos H F, (pos <= length data)%nat -> types_ok vals ts -> good H (flat_map own vals) F ->
      fhout ts (length data) H F (hfield_loop data nums hfld n vals pos H)
        (field_loop data nums fld n (map erase vals) pos).
  Proof.
    intros Hn Hs Hf. induction n as [|n IH]; intros vals pos H F Hp [Hw Hsh] HG; cbn [hfield_loop field_loop];
      (destruct (pos <? length data)%nat eqn:E;
       [|cbn [fhout]; split; [exact HG|]; split; [reflexivity|]; split; [exact Hsh|]; left;
         split; [reflexivity|apply calm_refl]]).
    - cbn [fhout]. split; [exact HG|]. split; [reflexivity|]. split; [exact Hsh|]. left.
      split; [reflexivity|apply calm_refl].
    - pose proof (varint_prog 4 false 0 data eq_refl pos Hp) as HV.
      destruct (des_varint 4 false 0 data pos) as [[r tag] pos1].
      destruct r; try (exfalso; exact HV);
        [|cbn [fhout]; split; [exact HG|]; split; [reflexivity|]; split; [exact Hsh|]; left;
          split; [reflexivity|apply calm_refl]].
      destruct HV as [HV _].
      destruct (index_of nums (N.shiftr tag 3)) as [i|] eqn:Ei.
      + apply index_of_lt in Ei. pose proof (Hn _ _ Ei) as Ht.
        destruct (nth_error ts i) as [t|] eqn:Et; [|congruence].
        destruct (forall2b_nth_l _ _ _ _ _ Hsh Et) as (x & Hx & Hshx). rewrite Hx.
        rewrite (map_nth_error erase _ _ Hx).
        destruct (forall2b_nth _ _ _ _ _ Hw (map_nth_error erase _ _ Hx)) as (t' & Et' & Hwx).
        rewrite Et in Et'. injection Et' as <-.
        destruct (own_set_nth i vals x Hx) as (o & Ho).
        assert (HG' : good H (own x ++ o) F).
        { eapply good_perm; [|exact HG]. intro b. rewrite <- (set_nth_same i vals x Hx), Ho, cnt_app. reflexivity. }
        apply good_frame in HG'.
        specialize (Hf i t (N.land tag 7) x pos1 H _ Et Hwx Hshx ltac:(lia) HG').
        specialize (Hs i t (N.land tag 7) (erase x) pos1 Et Hwx ltac:(lia)).
        destruct (hfld i (N.land tag 7) x pos1 H) as [[[r v] pos2] H1]. cbn [phout] in Hf.
        destruct Hf as (F1 & F2 & F3 & F4). apply good_frame in F1.
        assert (F1' : good H1 (flat_map own (set_nth i v vals)) F).
        { eapply good_perm; [|exact F1]. intro b. rewrite Ho, cnt_app. reflexivity. }
        assert (F3' : forall2b (fun x t => pshaped P x t) (set_nth i v vals) ts = true)
          by (eapply forall2b_set; eauto).
        destruct F4 as [[F4 Fc]|(-> & Fc & Fp & Fw)].
        2:{ cbn [fhout]. split; [exact F1'|]. split; [exact F2|]. split; [exact F3'|]. right.
            split; [reflexivity|]. split; [exact Fc|]. split; [lia|]. rewrite map_set_nth.
            eapply forall2b_set; eauto. }
        rewrite <- F4 in Hs |- *. destruct Hs as (S1 & S2 & _).
        destruct r;
          try (cbn [fhout]; split; [exact F1'|]; split; [exact F2|]; split; [exact F3'|]; left;
               rewrite map_set_nth; split; [reflexivity|exact Fc]).
        assert (T : types_ok (set_nth i v vals) ts).
        { split; [|exact F3']. rewrite map_set_nth. eapply forall2b_set; eauto. }
        specialize (IH (set_nth i v vals) pos2 H1 F ltac:(lia) T F1'). rewrite map_set_nth in IH.
        destruct (hfield_loop data nums hfld n _ pos2 H1) as [[[r l] p] H2]. cbn [fhout] in *.
        destruct IH as (I1 & I2 & I3 & I4). split; [exact I1|]. split; [congruence|]. split; [exact I3|].
        destruct I4 as [[I4 Ic]|(-> & Ic & Ip)]; [left|right].
        * split; [exact I4|]. now apply calm_trans with H1.
        * split; [reflexivity|]. split; [now apply calm_stopped with H1|exact Ip].
      + destruct (N.shiftr tag 3 =? 0);
          [cbn [fhout]; split; [exact HG|]; split; [reflexivity|]; split; [exact Hsh|]; left;
           split; [reflexivity|apply calm_refl]|].
        apply IH; [lia|now split|exact HG].
  Qed.

  Lemma hclear_member_ok t h H o F : pshaped P h t = true -> good H (own h ++ o) F ->
    match hclear_member t h H with (h', H') =>
      good H' (own h' ++ o) F /\ hbad H' = hbad H /\ hnext H' = hnext H /\ pshaped P h' t = true /\
      erase h' = clear_member t (erase h)
    end.
  Proof.
    intros Hs HG.
    assert (D : match (HSeq [] [], destroy h H) with (h', H') =>
      good H' (own h' ++ o) F /\ hbad H' = hbad H /\ hnext H' = hnext H /\ erase h' = VSeq [] end).
    { apply destroy_good in HG as (G1 & G2 & G3). cbn [own flat_map app]. auto. }
    assert (K : forall bs l, h = HSeq bs l ->
      match (HSeq bs [], free_all (flat_map own l) H) with (h', H') =>
        good H' (own h' ++ o) F /\ hbad H' = hbad H /\ hnext H' = hnext H /\ erase h' = VSeq [] end).
    { intros bs l ->. cbn [own flat_map app] in *.
      assert (X : good H (flat_map own l ++ (bs ++ []) ++ o) F) by (eapply good_perm; [|exact HG]; perm).
      apply free_all_good in X as (G1 & G2 & G3). auto. }
    destruct t; cbn [hclear_member clear_member]; auto;
      try (destruct ck as [[|] rsv|k' rsv]; try (destruct D as (D1 & D2 & D3 & D4); cbn [pshaped]; auto; fail);
           destruct h as [|bs l| | | | | |]; try discriminate; destruct (K bs l eq_refl) as (K1 & K2 & K3 & K4);
           cbn [has blocks pshaped ckshape] in *; apply andb_true_iff in Hs as [Hs _]; rewrite Hs; auto).
    destruct D as (D1 & D2 & D3 & D4). cbn [pshaped]. auto.
  Qed.

  Lemma hclear_members_ok ts : forall l H o F,
    forall2b (fun x t => pshaped P x t) l ts = true -> good H (flat_map own l ++ o) F ->
    match hclear_members ts l H with (l', H') =>
      good H' (flat_map own l' ++ o) F /\ hbad H' = hbad H /\ hnext H' = hnext H /\
      forall2b (fun x t => pshaped P x t) l' ts = true /\ map erase l' = clear_members ts (map erase l)
    end.
  Proof.
    induction ts as [|t ts IH]; intros [|h l] H o F Hs HG; try discriminate; cbn [hclear_members clear_members map]; [auto|].
    cbn [forall2b flat_map] in *. apply andb_true_iff in Hs as [S1 S2].
    rewrite <- app_assoc in HG. pose proof (hclear_member_ok t h H _ F S1 HG) as M.
    destruct (hclear_member t h H) as [h' H1]. destruct M as (M1 & M2 & M3 & M4 & M5).
    assert (X : good H1 (flat_map own l ++ own h' ++ o) F) by (eapply good_perm; [|exact M1]; perm).
    specialize (IH l H1 _ F S2 X). destruct (hclear_members ts l H1) as [l' H2].
    destruct IH as (I1 & I2 & I3 & I4 & I5). split; [|split; [congruence|split; [congruence|split]]].
    - cbn [flat_map]. eapply good_perm; [|exact I1]. perm.
    - cbn [forall2b]. now rewrite M4.
    - cbn [map]. now rewrite M5, I5.
  Qed.

  (** Containers of numbers. *)
  Lemma nums_added l x l' : forallb is_num l = true -> is_num x = true ->
    (forall y, In y l' -> In y l \/ y = x) -> forallb is_num l' = true.
  Proof.
    intros Hl Hx Hin. rewrite forallb_forall in *. intros y Hy. destruct (Hin y Hy) as [K| ->]; auto.
  Qed.

  Lemma hpacked_loop_ok fetch ck stop N' w :
    nprog fetch N' (pow256 w) -> ck_laws (numok w) ck ->
    forall n bs acc pos H F, (pos <= N')%nat ->
      pwt P (VSeq (map erase acc)) (PFixes ck w) = true -> pshaped P (HSeq bs acc) (PFixes ck w) = true ->
      good H (bs ++ flat_map own acc) F ->
      phout (PFixes ck w) N' pos H F (hpacked_loop ok room fetch ck stop n bs acc pos H)
        (packed_loop fetch (cinsert ck) stop n (map erase acc) pos).
  Proof.
    intros Hf Hck. induction n as [|n IH]; intros bs acc pos H F Hp Hw Hs HG; cbn [hpacked_loop packed_loop];
      (destruct (N.of_nat pos <? stop);
       [|cbn [phout]; split; [exact HG|]; split; [reflexivity|]; split; [exact Hs|]; left;
         split; [reflexivity|apply calm_refl]]).
    - cbn [phout]. split; [exact HG|]. split; [reflexivity|]. split; [exact Hs|]. left.
      split; [reflexivity|apply calm_refl].
    - specialize (Hf pos Hp). destruct (fetch pos) as [[r x] p].
      destruct r; try (exfalso; exact Hf);
        [|cbn [phout]; split; [exact HG|]; split; [reflexivity|]; split; [exact Hs|]; left;
          split; [reflexivity|apply calm_refl]].
      destruct Hf as [H1 H2]. cbn [pshaped] in Hs. apply andb_true_iff in Hs as [Hs Hn].
      assert (HG' : good H (bs ++ flat_map own acc ++ own (HN x)) F) by (cbn [own]; now rewrite app_nil_r).
      pose proof (hadd_ok ok room ck bs acc (HN x) H F Hs HG') as A.
      destruct (hadd ok room ck bs acc (HN x) H) as [[[r bs'] acc'] H'].
      destruct A as (A1 & A2 & A3 & A4 & A5). pose proof (nums_added acc (HN x) acc' Hn eq_refl A4) as Hn'.
      destruct A5 as [(-> & A5 & A6)|(-> & -> & A6)].
      + rewrite <- (eq_refl : erase (HN x) = VN x), <- A5.
        assert (Hw' : pwt P (VSeq (map erase acc')) (PFixes ck w) = true).
        { rewrite A5. cbn [pwt] in *. apply cinsert_ok; auto. cbn. lia. }
        assert (Hs' : pshaped P (HSeq bs' acc') (PFixes ck w) = true) by (cbn [pshaped]; now rewrite A3, Hn').
        specialize (IH bs' acc' p H' F ltac:(lia) Hw' Hs' A1).
        destruct (hpacked_loop ok room fetch ck stop n bs' acc' p H') as [[[r h] p'] H2']. cbn [phout] in *.
        destruct IH as (I1 & I2 & I3 & I4). split; [exact I1|]. split; [congruence|]. split; [exact I3|].
        destruct I4 as [[I4 Ic]|(-> & Ic & Ip & Iw)]; [left|right].
        * split; [exact I4|]. now apply calm_trans with H'.
        * split; [reflexivity|]. split; [now apply calm_stopped with H'|]. split; [lia|exact Iw].
      + cbn [phout]. split; [exact A1|]. split; [exact A2|]. split; [cbn [pshaped]; now rewrite A3, Hn|]. right.
        split; [reflexivity|]. split; [exact A6|]. split; [lia|exact Hw].
  Qed.

  (** Reading into a list keeps its length. *)
  Lemma des_all_length f : forall l pos, match des_all f l pos with (_, l', _) => length l' = length l end.
  Proof.
    induction l as [|x l IH]; intro pos; cbn [des_all]; [reflexivity|].
    destruct (f x pos) as [[r v] p]. destruct r; try reflexivity.
    specialize (IH p). destruct (des_all f l p) as [[r' vs] p']. cbn [length]. now rewrite IH.
  Qed.

  Lemma list_length c data rec w l pos :
    match des_ty no_types c data rec (TVec (Some SzNone) false (scalar_ty w)) (VSeq l) pos with
      (_, v, _) => length (as_seq v) = length l
    end.
  Proof.
    cbn [des_ty sz_of as_seq]. rewrite andb_false_r. unfold des_elems, seq_res.
    pose proof (des_all_length (des_ty no_types c data rec (scalar_ty w)) l pos) as K.
    destruct (des_all _ l pos) as [[r l'] p]. exact K.
  Qed.

  Lemma hdes_scalars_ok c data ck w resize fetch wt h pos H F :
    small data -> wfw w = true -> wfsz (Some (dsize c)) = true ->
    ck_laws (numok w) ck -> (resize = true -> exists ct rv, ck = CSeq ct rv) ->
    nprog fetch (length data) (pow256 w) -> (pos <= length data)%nat ->
    pwt P (erase h) (PFixes ck w) = true -> pshaped P h (PFixes ck w) = true -> good H (own h) F ->
    phout (PFixes ck w) (length data) pos H F (hdes_scalars ok room c data ck w resize fetch wt h pos H)
      (des_scalars c data ck w resize fetch wt (erase h) pos).
  Proof.
    intros Hsm Hw Hds Hck Hrs Hf Hp Hpr Hs HG.
    destruct h as [|bs l| | | | | |]; try discriminate. cbn [erase] in *. unfold hdes_scalars, des_scalars.
    cbn [has blocks as_seq]. cbn [own] in HG.
    assert (Keep : forall r p, phout (PFixes ck w) (length data) pos H F (r, HSeq bs l, p, H) (r, VSeq (map erase l), p)).
    { intros r p. cbn [phout]. split; [exact HG|]. split; [reflexivity|]. split; [exact Hs|]. left.
      split; [reflexivity|apply calm_refl]. }
    pose proof Hs as Hs0. cbn [pshaped] in Hs0. apply andb_true_iff in Hs0 as [Hsh Hn].
    destruct (negb (wt =? 2)).
    - specialize (Hf pos Hp). destruct (fetch pos) as [[r x] p]. destruct r; try (exfalso; exact Hf); [|apply Keep].
      assert (HG' : good H (bs ++ flat_map own l ++ own (HN x)) F) by (cbn [own]; now rewrite app_nil_r).
      pose proof (hadd_ok ok room ck bs l (HN x) H F Hsh HG') as A.
      destruct (hadd ok room ck bs l (HN x) H) as [[[r bs'] l'] H'].
      destruct A as (A1 & A2 & A3 & A4 & A5). pose proof (nums_added l (HN x) l' Hn eq_refl A4) as Hn'.
      cbn [phout]. split; [exact A1|]. split; [exact A2|]. split; [cbn [pshaped]; now rewrite A3, Hn'|].
      destruct A5 as [(-> & A5 & A6)|(-> & -> & A6)]; [left|right].
      + split; [|exact A6]. cbn [erase]. now rewrite A5.
      + split; [reflexivity|]. split; [exact A6|]. split; [lia|exact Hpr].
    - pose proof (varint_prog 8 false 0 data eq_refl pos Hp) as HV.
      destruct (des_varint 8 false 0 data pos) as [[r len] p].
      destruct r; try (exfalso; exact HV); [|apply Keep]. destruct HV as [HV _].
      destruct resize.
      + destruct (Hrs eq_refl) as (ct & rv & ->).
        destruct (match alim c with Some lim => lim <? len | None => false end); [apply Keep|].
        rewrite (own_nums _ Hn), app_nil_r in HG.
        pose proof (hresize_ok ok room c ct rv w (len / N.of_nat w) bs l H F Hsh Hn HG) as A.
        destruct (hresize ok room c ct w (len / N.of_nat w) bs l H) as [[[r bs'] l'] H'].
        destruct A as (A1 & A2 & A3 & A4 & A5). rewrite map_length.
        assert (Throw : good H' (own (HSeq bs' l')) F).
        { cbn [own]. now rewrite (own_nums _ A4), app_nil_r. }
        destruct A5 as [(-> & Er & A5 & A6)|[(-> & -> & Er & A6)|(-> & -> & A6)]].
        * rewrite Er, A5.
          assert (HS : strok w (VSeq (vresize (VN 0) (N.to_nat (len / N.of_nat w)) (map erase l))) = true).
          { cbn [strok]. rewrite forallb_forall. apply Forall_forall. apply vresize_forall.
            - cbn. pose proof (pow256_pos w). lia.
            - cbn [pwt] in Hpr. apply andb_true_iff in Hpr as [Hpr _].
              now apply Forall_forall, forallb_forall. }
          pose proof (vec_scalar_safe true c data (Some SzNone) ct w (fun _ p pos => (RUB, p, pos))
            Hsm Hw Hds eq_refl _ p ltac:(lia) HS) as S.
          cbn [unsized_ty].
          destruct (des_ty _ _ _ _ _ _ p) as [[r v] p'] eqn:Ed. destruct S as (S1 & S2 & S3).
          destruct v as [|vs| | | | | |]; try discriminate. cbn [as_seq phout]. cbn [strok] in S2.
          split; [cbn [own]; now rewrite own_bares, app_nil_r|]. split; [exact A2|]. split.
          { cbn [pshaped]. rewrite (nums_bare w vs S2), andb_true_r. destruct ct; [exact A3|].
            pose proof (list_length c data (fun _ p pos => (RUB, p, pos)) w (map erase l') p) as LL.
            rewrite A5, Ed in LL. cbn [as_seq] in LL. cbn [ckshape] in *. rewrite map_length, LL, <- A5, map_length.
            exact A3. }
          left. split; [|exact A6]. cbn [erase]. now rewrite erase_bares.
        * rewrite Er. cbn [phout]. split; [exact Throw|]. split; [exact A2|].
          split; [cbn [pshaped]; now rewrite A3, A4|]. left. split; [reflexivity|exact A6].
        * cbn [phout]. split; [exact Throw|]. split; [exact A2|].
          split; [cbn [pshaped]; now rewrite A3, A4|]. right. split; [reflexivity|]. split; [exact A6|].
          split; [lia|exact Hpr].
      + pose proof (hreserve_ok ok room c ck len bs l H F Hsh HG) as A.
        destruct (hreserve ok room c ck len bs l H) as [[r bs'] H']. destruct A as (A1 & A2 & A3 & A4).
        destruct A4 as [[Er A4]|[-> A4]].
        * destruct (reserve_ok c ck len (map erase l)); subst r.
          2:{ cbn [phout]. split; [exact A1|]. split; [exact A2|]. split; [cbn [pshaped]; now rewrite A3, Hn|].
              left. split; [reflexivity|exact A4]. }
          assert (Hs' : pshaped P (HSeq bs' l) (PFixes ck w) = true) by (cbn [pshaped]; now rewrite A3, Hn).
          pose proof (hpacked_loop_ok fetch ck (wadd len (N.of_nat p)) (length data) w Hf Hck
            (S (length data)) bs' l p H' F ltac:(lia) Hpr Hs' A1) as K.
          destruct (hpacked_loop _ _ _ _ _ _ _ _ _ _) as [[[r h] p'] H2]. cbn [phout] in *.
          destruct K as (I1 & I2 & I3 & I4). split; [exact I1|]. split; [congruence|]. split; [exact I3|].
          destruct I4 as [[I4 Ic]|(-> & Ic & Ip & Iw)]; [left|right].
          -- split; [exact I4|]. now apply calm_trans with H'.
          -- split; [reflexivity|]. split; [now apply calm_stopped with H'|]. split; [lia|exact Iw].
        * cbn [phout]. split; [exact A1|]. split; [exact A2|]. split; [cbn [pshaped]; now rewrite A3, Hn|]. right.
          split; [reflexivity|]. split; [exact A4|]. split; [lia|exact Hpr].
  Qed.

  (** A nested message. *)
  Lemma hdes_nested_ok data fields hfields ts size l pos H F :
    (pos <= length data)%nat -> types_ok l ts -> good H (flat_map own l) F ->
    (forall sub vals, (length sub <= length data - pos)%nat -> types_ok vals ts -> forall H F,
       good H (flat_map own vals) F -> fhout ts (length sub) H F (hfields sub vals H) (fields sub (map erase vals))) ->
    match hdes_nested data hfields size (HSeq [] l) pos H with (r, h, p, H') =>
      exists vs, h = HSeq [] vs /\ good H' (own h) F /\ hbad H' = hbad H /\
        forall2b (fun x t => pshaped P x t) vs ts = true /\
        ((r, erase h, p) = des_nested data fields size (VSeq (map erase l)) pos /\ calm ok H H'
         \/ r = RThrow /\ stopped ok H H' /\ p = pos /\ forall2b (fun x t => pwt P x t) (map erase vs) ts = true)
    end.
  Proof.
    intros Hp Ht HG Hf. unfold hdes_nested, des_nested, rest_of.
    replace (pos <=? length data)%nat with true by lia. set (n := match size with Some _ => _ | None => _ end).
    cbn [has as_seq].
    assert (Hl : (length (firstn n (skipn pos data)) <= length data - pos)%nat)
      by (rewrite firstn_length, skipn_length; lia).
    specialize (Hf (firstn n (skipn pos data)) l Hl Ht H F HG).
    destruct (hfields _ l H) as [[[r vs] p] H']. cbn [fhout] in Hf. destruct Hf as (F1 & F2 & F3 & F4).
    destruct F4 as [[F4 Fc]|(-> & Fc & Fp & Fw)].
    - rewrite <- F4. destruct r; exists vs; (split; [reflexivity|]); (split; [exact F1|]); (split; [exact F2|]);
        (split; [exact F3|]); left; (split; [reflexivity|exact Fc]).
    - exists vs. split; [reflexivity|]. split; [exact F1|]. split; [exact F2|]. split; [exact F3|]. right. auto.
  Qed.

  Lemma hdes_protocol_ok c s data fields hfields ts l pos H F :
    wfsz (Some s) = true -> small data -> (pos <= length data)%nat -> types_ok l ts ->
    good H (flat_map own l) F ->
    (forall sub vals, (length sub <= length data - pos)%nat -> types_ok vals ts -> forall H F,
       good H (flat_map own vals) F -> fhout ts (length sub) H F (hfields sub vals H) (fields sub (map erase vals))) ->
    match hdes_protocol c data s (hdes_nested data hfields) (HSeq [] l) pos H with (r, h, p, H') =>
      exists vs, h = HSeq [] vs /\ good H' (own h) F /\ hbad H' = hbad H /\
        forall2b (fun x t => pshaped P x t) vs ts = true /\
        ((r, erase h, p) = des_protocol c data s (des_nested data fields) (VSeq (map erase l)) pos /\ calm ok H H'
         \/ r = RThrow /\ stopped ok H H' /\ (pos <= p <= length data)%nat
            /\ forall2b (fun x t => pwt P x t) (map erase vs) ts = true)
    end.
  Proof.
    intros Hs Hsm Hp Ht HG Hf.
    assert (HN : forall size p, (pos <= p <= length data)%nat ->
      match hdes_nested data hfields size (HSeq [] l) p H with (r, h, p', H') =>
        exists vs, h = HSeq [] vs /\ good H' (own h) F /\ hbad H' = hbad H /\
        forall2b (fun x t => pshaped P x t) vs ts = true /\
        ((r, erase h, p') = des_nested data fields size (VSeq (map erase l)) p /\ calm ok H H'
         \/ r = RThrow /\ stopped ok H H' /\ (pos <= p' <= length data)%nat
            /\ forall2b (fun x t => pwt P x t) (map erase vs) ts = true)
      end).
    { intros size p Hpp.
      pose proof (hdes_nested_ok data fields hfields ts size l p H F ltac:(lia) Ht HG) as S.
      assert (S' := S ltac:(intros; apply Hf; [lia|assumption|assumption])). clear S.
      destruct (hdes_nested _ _ _ _ _ _) as [[[r v] p'] H'].
      destruct S' as (vs & E & S1 & S2 & S3 & S4). exists vs. split; [exact E|]. split; [exact S1|].
      split; [exact S2|]. split; [exact S3|]. destruct S4 as [S4|(K1 & K2 & -> & K3)]; [left; exact S4|right].
      repeat split; auto; lia. }
    unfold hdes_protocol, des_protocol.
    pose proof (des_size_le c data s pos Hs Hsm Hp) as HS.
    destruct s as [|w|w]; [apply HN; lia| |];
      (destruct (des_size c data _ pos) as [[r n] p];
       destruct r; try contradiction; [now apply HN|];
       exists l; split; [reflexivity|]; split; [exact HG|]; split; [reflexivity|]; split; [apply Ht|]; left;
       split; [reflexivity|apply calm_refl]).
  Qed.

  (** Adding an object that was read on the side. *)
  Lemma hadd_object_ok add ins shp (Q : hval -> bool) (R : val -> bool) t n bs l pos H F x y :
    (forall x H F, shp bs l = true -> good H (bs ++ flat_map own l ++ own x) F ->
       added ok ins shp l x H F (add bs l x H)) ->
    (forall bs l, pshaped P (HSeq bs l) t = shp bs l && forallb Q l) ->
    pshaped P (HSeq bs l) t = true -> pwt P (VSeq (map erase l)) t = true ->
    good H (bs ++ flat_map own l) F ->
    match x with (r, h, p, H') =>
      good H' (own h) (fun b => (cnt b (bs ++ flat_map own l) + F b)%nat) /\ hbad H' = hbad H /\ Q h = true /\
      (pos <= p <= n)%nat /\
      ((r, erase h, p) = y /\ calm ok H H' \/ r = RThrow /\ stopped ok H H')
    end ->
    phout t n pos H F (hadd_object add (HSeq bs l) x) (add_object ins (VSeq (map erase l)) y).
  Proof.
    intros Hadd Et Hs Hw HG. destruct x as [[[r h] p] H']. intros (X1 & X2 & X3 & X4 & X5).
    rewrite Et in Hs. apply andb_true_iff in Hs as [Hs1 Hs2]. unfold hadd_object, add_object.
    apply good_frame in X1. destruct (destroy_good h H' _ F X1) as (D1 & D2 & D3).
    destruct X5 as [[<- Xc]|[-> Xc]].
    2:{ cbn [phout]. split; [exact D1|]. split; [congruence|]. split; [now rewrite Et, Hs1|]. right.
        split; [reflexivity|]. split; [now apply stopped_next with H'|]. split; [lia|exact Hw]. }
    destruct r; try (cbn [phout]; split; [exact D1|]; split; [congruence|]; split; [now rewrite Et, Hs1|]; left;
      split; [reflexivity|now apply calm_next with H']).
    cbn [has blocks as_seq].
    assert (X : good H' (bs ++ flat_map own l ++ own h) F) by (eapply good_perm; [|exact X1]; perm).
    specialize (Hadd h H' F Hs1 X). destruct (add bs l h H') as [[[r bs'] l'] H2].
    destruct Hadd as (A1 & A2 & A3 & A4 & A5). cbn [phout]. split; [exact A1|]. split; [congruence|]. split.
    { rewrite Et, A3. cbn [andb]. rewrite forallb_forall in *. intros z Hz. destruct (A4 z Hz) as [K| ->]; auto. }
    destruct A5 as [(-> & A5 & A6)|(-> & -> & A6)]; [left|right].
    - split; [|now apply calm_trans with H']. cbn [erase]. now rewrite A5.
    - split; [reflexivity|]. split; [now apply calm_stopped with H'|]. split; [lia|exact Hw].
  Qed.

  (** A string read into a temporary. *)
  Lemma hstring_ok c data contig w pos H F :
    small data -> wfw w = true -> wfsz (Some (dsize c)) = true -> (pos <= length data)%nat -> good H [] F ->
    match hdes_ty ok no_types c data (fun _ => false) (fun _ p pos H => (RUB, p, pos, H))
            (TVec None contig (scalar_ty w)) (HSeq [] []) pos H with
    | (r, h, p, H') =>
        good H' (own h) F /\ hbad H' = hbad H /\
        match h with HSeq bs' m => ckshape (CSeq contig None) bs' m && forallb is_num m | _ => false end = true /\
        (pos <= p <= length data)%nat /\
        ((r, erase h, p)
         = des_ty no_types c data (fun _ p pos => (RUB, p, pos)) (TVec None contig (scalar_ty w)) (VSeq []) pos
         /\ calm ok H H'
         \/ r = RThrow /\ stopped ok H H')
    end.
  Proof.
    intros Hsm Hw Hds Hp HG.
    assert (Hwf : wf no_types (TVec None contig (scalar_ty w)) = true).
    { cbn [wf]. now rewrite scalar_ty_wf. }
    pose proof (hdes_ty_ok ok no_types c data (fun _ => false) Hsm no_types_wf Hds
      (fun k => eq_refl) (fun _ p pos H => (RUB, p, pos, H)) (fun _ p pos => (RUB, p, pos))) as K.
    assert (Hrec : forall k, hsafe_both ok no_types data (fun _ => false) (TRec k)
      (fun p pos H => (RUB, p, pos, H)) (fun p pos => (RUB, p, pos))).
    { intro k. split.
      - intros v p Hpp Hv. cbn [safe_out]. split; [lia|]. split; [exact Hv|]. split; [reflexivity|discriminate].
      - intros h p H1 F1 Hpp Hv Hsh Hg. cbn [hout]. split; [exact Hg|]. auto 6. }
    specialize (K Hrec (TVec None contig (scalar_ty w)) Hwf
      ltac:(unfold scalar_ty; cbn; auto) ltac:(unfold scalar_ty, tracked; cbn; reflexivity)) as [Ks Kh].
    specialize (Kh (HSeq [] []) pos H F Hp eq_refl ltac:(cbn; now destruct contig) HG).
    specialize (Ks (VSeq []) pos Hp eq_refl).
    pose proof (hdes_ty_loud ok no_types c data (fun _ => false) (fun _ p pos H => (RUB, p, pos, H))
      (fun k h p H => loud_refl ok RUB (hnext H)) (TVec None contig (scalar_ty w)) (HSeq [] []) pos H) as L.
    destruct (hdes_ty _ _ _ _ _ _ _ _ _ _) as [[[r h] p] H'].
    cbn [hout erase map] in Kh. destruct Kh as (K1 & K2 & K3 & K4 & K5).
    split; [exact K1|]. split; [exact K2|].
    assert (Sh : match h with HSeq bs' m => ckshape (CSeq contig None) bs' m && forallb is_num m | _ => false end = true).
    { destruct h as [|bs m| | | | | |]; try discriminate. cbn [shaped] in K4. apply andb_true_iff in K4 as [Q1 Q2].
      apply andb_true_iff. split; [destruct contig; exact Q1|]. rewrite forallb_forall in *. intros x Hx.
      specialize (Q2 x Hx). unfold scalar_ty in Q2. destruct x; try discriminate. reflexivity. }
    split; [exact Sh|].
    assert (Rg : (pos <= p <= length data)%nat).
    { destruct K5 as [K5|(_ & _ & K5 & _)]; [|exact K5]. rewrite <- K5 in Ks. apply Ks. }
    split; [exact Rg|].
    destruct L as [L1 [L2|[-> L2]]].
    - left. split; [|now split]. destruct K5 as [K5|(-> & (q & Hq & Eq) & _)]; [exact K5|].
      rewrite (L2 q Hq) in Eq. discriminate.
    - right. split; [reflexivity|exact L2].
  Qed.

  (** Value-initialised messages own nothing. *)
  Hypothesis HB : forall k, pshaped P (bare (VSeq (m_dflt (P k)))) (PMsg k) = true.

  Lemma pdflt_shaped t : pshaped P (bare (pdflt P t)) t = true.
  Proof.
    destruct t; cbn [pdflt bare pshaped map]; auto; try (destruct ck as [[|] ?|? ?]; reflexivity).
    - apply HB.
    - apply forallb_forall. intros x Hx. apply in_map_iff in Hx as (y & <- & Hy). apply repeat_spec in Hy. now subst y.
  Qed.

  Variable c : cfg.
  Hypothesis Hds : wfsz (Some (dsize c)) = true.

  Section Field.
    Variables (hrec : nat -> list byte -> list hval -> heap -> res * list hval * nat * heap)
      (rec : nat -> list byte -> list val -> res * list val * nat) (L : nat).
    Hypothesis Hsafe : forall k sub vals, (length sub < L)%nat -> small sub ->
      pwt P (VSeq vals) (PMsg k) = true ->
      fsafe P true (map snd (m_fields (P k))) (length sub) (rec k sub vals).
    Hypothesis Hrec : forall k sub vals, (length sub < L)%nat -> small sub ->
      types_ok vals (map snd (m_fields (P k))) -> forall H F, good H (flat_map own vals) F ->
      fhout (map snd (m_fields (P k))) (length sub) H F (hrec k sub vals H) (rec k sub (map erase vals)).

    Lemma hleaf_out t data wt prior pos H F :
      match t with PEmpty | PFix _ | PBool | PByte | PVar _ _ _ | PArr _ _ => True | _ => False end ->
      wfp t = true -> (length data <= L)%nat -> small data -> (0 < pos <= length data)%nat ->
      pwt P (erase prior) t = true -> pshaped P prior t = true -> good H (own prior) F ->
      phout t (length data) pos H F
        (hleaf (des_field P c (fun _ _ v => (RUB, v, O)) t data wt (erase prior) pos) H)
        (des_field P c rec t data wt (erase prior) pos).
    Proof.
      intros Ht Hwf HL Hsm Hp Hw Hs HG.
      assert (Eo : own prior = []).
      { destruct t; try contradiction; destruct prior as [|[|] l| | | | | |]; try discriminate; try reflexivity.
        - cbn [pshaped] in Hs. now destruct l.
        - cbn [own app]. now apply own_nums. }
      rewrite Eo in HG.
      replace (des_field P c (fun _ _ v => (RUB, v, O)) t data wt (erase prior) pos)
        with (des_field P c rec t data wt (erase prior) pos) by (destruct t; try contradiction; reflexivity).
      pose proof (des_field_safe P true HP c Hds rec L Hsafe t Hwf eq_refl
        ltac:(destruct t; try contradiction; exact I) data HL Hsm wt (erase prior) pos Hp Hw) as S.
      destruct (des_field P c rec t data wt (erase prior) pos) as [[r v] p]. destruct S as (S1 & S2 & _).
      unfold hleaf. cbn [phout]. rewrite own_bare, erase_bare. split; [exact HG|]. split; [reflexivity|]. split.
      - destruct t; try contradiction; destruct v as [|l| | | | | |]; try discriminate; try reflexivity.
        + cbn [pwt] in S2. destruct l; [reflexivity|discriminate].
        + cbn [pwt] in S2. apply andb_true_iff in S2 as [_ S2]. cbn [bare pshaped]. now apply nums_bare with w.
      - left. split; [reflexivity|apply calm_refl].
    Qed.

    Lemma hdes_field_ok t :
      wfp t = true -> pcmp_ok P t ->
      forall data, (length data <= L)%nat -> small data ->
      forall wt prior pos H F, (0 < pos <= length data)%nat -> pwt P (erase prior) t = true ->
      pshaped P prior t = true -> good H (own prior) F ->
      phout t (length data) pos H F (hdes_field ok room P c hrec t data wt prior pos H)
        (des_field P c rec t data wt (erase prior) pos).
    Proof.
      induction t as [w| | |w sg zz| |k|ck w|ck w sg zz|ck contig w|ck k|ak kt IHk vt IHv|m w];
        intros Hwf Hc data HL Hsm wt prior pos H F Hp Hpr Hs HG;
        try (apply hleaf_out; auto; exact I).
      - destruct (pshaped_msg k prior Hs) as (l & -> & Hl). cbn [erase] in *. cbn [hdes_field des_field].
        assert (T : types_ok l (map snd (m_fields (P k)))).
        { split; [|exact Hl]. cbn [pwt] in Hpr. now rewrite forall2b_snd in Hpr. }
        pose proof (hdes_protocol_ok c (dsize c) data (rec k) (hrec k) (map snd (m_fields (P k))) l pos H F
          Hds Hsm ltac:(lia) T HG) as S.
        assert (S' := S ltac:(intros sub vals Hsub Hv H1 F1 G1; apply Hrec; auto; [lia|unfold small in *; lia])).
        clear S. destruct (hdes_protocol _ _ _ _ _ _ _) as [[[r h] p] H'].
        destruct S' as (vs & -> & S1 & S2 & S3 & S4). cbn [phout]. split; [exact S1|]. split; [exact S2|].
        split; [cbn [pshaped]; now rewrite pshaped_snd|].
        destruct S4 as [S4|(K1 & K2 & K3 & K4)]; [left; exact S4|right].
        repeat split; auto; try lia. cbn [erase pwt]. now rewrite forall2b_snd.
      - cbn [hdes_field des_field wfp pcmp_ok] in *. apply hdes_scalars_ok; auto; try lia.
        + destruct ck; [eauto|discriminate].
        + apply scalar_prog; [pose proof (wfw_pos _ Hwf); lia|exact Hsm].
      - cbn [hdes_field des_field wfp pcmp_ok] in *.
        pose proof (hdes_scalars_ok c data ck w false (des_varint w zz 0 data) wt prior pos H F
          Hsm Hwf Hds Hc ltac:(discriminate) (varint_prog w zz 0 data Hwf) ltac:(lia)
          ltac:(destruct prior; try discriminate; exact Hpr) ltac:(destruct prior; try discriminate; exact Hs) HG) as S.
        destruct (hdes_scalars _ _ _ _ _ _ _ _ _ _ _ _) as [[[r h] p] H']. cbn [phout] in *.
        destruct S as (S1 & S2 & S3 & S4). split; [exact S1|]. split; [exact S2|].
        split; [destruct h; try discriminate; exact S3|].
        destruct S4 as [S4|(K1 & K2 & K3 & K4)]; [left; exact S4|right].
        repeat split; auto; try lia. destruct h; try discriminate; exact K4.
      - destruct prior as [|bs l| | | | | |]; try discriminate. cbn [hdes_field des_field wfp pcmp_ok erase own] in *.
        eapply (hadd_object_ok (hadd ok room ck) (cinsert ck) (ckshape ck)
          (fun x => match x with
                    | HSeq bs' m => ckshape (CSeq contig None) bs' m && forallb is_num m | _ => false end)
          (fun _ => true)); eauto.
        + intros x H1 F1 Z1 Z2. now apply hadd_ok.
        + apply hstring_ok; auto; try lia; try (now apply good_all).
      - destruct prior as [|bs l| | | | | |]; try discriminate. cbn [hdes_field des_field wfp pcmp_ok erase own] in *.
        assert (Hd : types_ok (map bare (m_dflt (P k))) (map snd (m_fields (P k)))).
        { split.
          - pose proof (pwt_pdflt P (PMsg k) HP) as D. cbn [pdflt pwt] in D. rewrite forall2b_snd in D.
            now rewrite erase_bares.
          - pose proof (HB k) as D. cbn [bare pshaped] in D. now rewrite pshaped_snd in D. }
        pose proof (good_all _ _ _ HG) as G0. rewrite <- (own_bares (m_dflt (P k))) in G0.
        pose proof (hdes_protocol_ok c (dsize c) data (rec k) (hrec k) (map snd (m_fields (P k)))
          (map bare (m_dflt (P k))) pos H _ Hds Hsm ltac:(lia) Hd G0) as S.
        assert (S' := S ltac:(intros sub vals Hsub Hv H1 F1 G1; apply Hrec; auto; [lia|unfold small in *; lia])).
        clear S.
        pose proof (des_protocol_safe P true c (dsize c) data (rec k) (map snd (m_fields (P k)))
          (m_dflt (P k)) pos Hds Hsm ltac:(lia) ltac:(destruct Hd as [D _]; now rewrite erase_bares in D)) as Z.
        assert (Z' := Z ltac:(intros sub vals Hsub Hv; apply Hsafe;
          [lia|unfold small in *; lia|cbn [pwt]; now rewrite forall2b_snd])). clear Z.
        eapply (hadd_object_ok (hadd ok room ck) (cinsert ck) (ckshape ck)
          (fun x => match x with
                    | HSeq [] m => forall2b (fun x fd => pshaped P x (snd fd)) m (m_fields (P k))
                    | _ => false end) (fun _ => true)); eauto.
        + intros x H1 F1 Z1 Z2. now apply hadd_ok.
        + cbn [bare]. destruct (hdes_protocol _ _ _ _ _ _ _) as [[[r h] p] H'].
          destruct S' as (vs & -> & S1 & S2 & S3 & S4). rewrite erase_bares in S4.
          split; [exact S1|]. split; [exact S2|]. split; [now rewrite pshaped_snd|].
          destruct S4 as [[S4 Sc]|(-> & K2 & K3 & K4)].
          * rewrite <- S4 in Z' |- *. cbn [erase] in Z'. split; [apply Z'|]. left. split; [reflexivity|exact Sc].
          * split; [exact K3|]. right. auto.
      - destruct prior as [|bs l| | | | | |]; try discriminate. cbn [hdes_field des_field wfp pcmp_ok erase own] in *.
        apply andb_true_iff in Hwf as [Hwk Hwv]. destruct Hc as (Hc & Hck & Hcv).
        set (hfields := fun sub vals H => let (vals', H') := hclear_members [kt; vt] vals H in
          hfield_loop sub [1; 2]
            (fun i => match i with O => hdes_field ok room P c hrec kt sub | S _ => hdes_field ok room P c hrec vt sub end)
            (S (length sub)) vals' 0 H').
        set (fields := fun sub vals => field_loop sub [1; 2]
          (fun i => match i with O => des_field P c rec kt sub | S _ => des_field P c rec vt sub end)
          (S (length sub)) (clear_members [kt; vt] vals) 0).
        assert (Hd : types_ok [bare (pdflt P kt); bare (pdflt P vt)] [kt; vt]).
        { split; cbn [map forall2b]; [now rewrite !erase_bare, !pwt_pdflt|now rewrite !pdflt_shaped]. }
        pose proof (good_all _ _ _ HG) as G0.
        rewrite <- (own_bares [pdflt P kt; pdflt P vt]) in G0. cbn [map] in G0.
        pose proof (hdes_protocol_ok c (dsize c) data fields hfields [kt; vt] _ pos H _ Hds Hsm ltac:(lia) Hd G0) as SP.
        assert (Fs : forall sub, (length sub <= length data - pos)%nat -> forall i t wt' prior pos',
          nth_error [kt; vt] i = Some t -> pwt P prior t = true -> (0 < pos' <= length sub)%nat ->
          psafe P true t (length sub) pos' ((fun i => match i with O => des_field P c rec kt sub
            | S _ => des_field P c rec vt sub end) i wt' prior pos')).
        { intros sub Hsub i t wt' prior pos' Ht Hw' Hp'. destruct i as [|[|[|i]]]; cbn in Ht; try discriminate;
            inversion Ht; subst t; apply (des_field_safe P true HP c Hds rec L Hsafe); auto; try lia;
            unfold small in *; lia. }
        assert (S' := SP ltac:(
          intros sub vals Hsub [V1 V2] H1 F1 G1; unfold hfields, fields;
          rewrite <- (app_nil_r (flat_map own vals)) in G1;
          pose proof (hclear_members_ok [kt; vt] vals H1 [] F1 V2 G1) as C;
          destruct (hclear_members [kt; vt] vals H1) as [vals' H2];
          destruct C as (C1 & C2 & C3 & C4 & C5); rewrite app_nil_r in C1; rewrite <- C5;
          assert (T : types_ok vals' [kt; vt]) by (split; [rewrite C5; now apply clear_members_wt|exact C4]);
          pose proof (hfield_loop_ok sub [1; 2] [kt; vt]
            (fun i => match i with O => hdes_field ok room P c hrec kt sub | S _ => hdes_field ok room P c hrec vt sub end)
            (fun i => match i with O => des_field P c rec kt sub | S _ => des_field P c rec vt sub end)
            ltac:(intros [|[|[|i]]] n; cbn; congruence) (Fs sub Hsub)
            ltac:(intros [|[|[|i]]] t wt' h' pos' H3 F3 Ht; cbn in Ht; try discriminate; inversion Ht; subst t;
                  intros; [apply IHk|apply IHv]; auto; try lia; unfold small in *; lia)
            (S (length sub)) vals' 0%nat H2 F1 ltac:(lia) T C1) as Q;
          destruct (hfield_loop _ _ _ _ _ _ _) as [[[r' l'] p'] H4]; cbn [fhout] in *;
          destruct Q as (Q1 & Q2 & Q3 & Q4); split; [exact Q1|]; split; [congruence|]; split; [exact Q3|];
          destruct Q4 as [[Q4 Qc]|(Qa & Qb & Qd)]; [left|right];
          [split; [exact Q4|]; apply calm_trans with H2; [apply calm_next with H1; [exact C3|apply calm_refl]|exact Qc]
          |split; [exact Qa|]; split; [|exact Qd]; apply calm_stopped with H2;
             [apply calm_next with H1; [exact C3|apply calm_refl]|exact Qb]])).
        clear SP.
        pose proof (des_protocol_safe P true c (dsize c) data fields [kt; vt] [pdflt P kt; pdflt P vt] pos
          Hds Hsm ltac:(lia) ltac:(cbn [forall2b]; now rewrite !pwt_pdflt)) as Z.
        assert (Z' := Z ltac:(intros sub vals Hsub Hv; apply field_loop_safe;
          [intros [|[|[|i]]] n; cbn; congruence|exact (Fs sub Hsub)|lia|lia|now apply clear_members_wt])). clear Z.
        eapply (hadd_object_ok (hemplace ok ak) (assoc_insert ak) (fun bs l => length bs =? length l)%nat
          (fun x => match x with HSeq [] [a; b] => pshaped P a kt && pshaped P b vt | _ => false end)
          (fun _ => true)); eauto.
        + intros x H1 F1 Z1 Z2. now apply hemplace_ok.
        + fold hfields fields. destruct (hdes_protocol _ _ _ _ _ _ _) as [[[r h] p] H'].
          destruct S' as (vs & -> & S1 & S2 & S3 & S4). cbn [map] in S4. rewrite !erase_bare in S4.
          split; [exact S1|]. split; [exact S2|]. split.
          { destruct vs as [|a [|b [|? ?]]]; cbn [forall2b] in S3; try discriminate.
            - now rewrite andb_false_r in S3.
            - now rewrite andb_true_r in S3.
            - now rewrite !andb_false_r in S3. }
          destruct S4 as [[S4 Sc]|(-> & K2 & K3 & K4)].
          * rewrite <- S4 in Z' |- *. cbn [erase] in Z'. split; [apply Z'|]. left. split; [reflexivity|exact Sc].
          * split; [exact K3|]. right. auto.
    Qed.
  End Field.

  Hypothesis Hcmp : pcmp_env P.

  Lemma hdes_fields_ok fuel : forall k data vals H F,
    small data -> (length data < fuel)%nat -> types_ok vals (map snd (m_fields (P k))) ->
    good H (flat_map own vals) F ->
    fhout (map snd (m_fields (P k))) (length data) H F (hdes_fields ok room P c fuel k data vals H)
      (des_fields P c fuel k data (map erase vals)).
  Proof.
    induction fuel as [|f IH]; intros k data vals H F Hsm Hlt [T1 T2] HG; [lia|].
    cbn [hdes_fields des_fields].
    rewrite <- (app_nil_r (flat_map own vals)) in HG.
    pose proof (hclear_members_ok (map snd (m_fields (P k))) vals H [] F T2 HG) as C.
    destruct (hclear_members (map snd (m_fields (P k))) vals H) as [vals' H2].
    destruct C as (C1 & C2 & C3 & C4 & C5). rewrite app_nil_r in C1. rewrite <- C5.
    assert (T : types_ok vals' (map snd (m_fields (P k)))) by (split; [rewrite C5; now apply clear_members_wt|exact C4]).
    assert (Hub : forall k, forallb (fun fd => true || no_bool (snd fd)) (m_fields (P k)) = true)
      by (intro k'; apply forallb_forall; reflexivity).
    assert (Hsafe : forall k' sub vals', (length sub < length data)%nat -> small sub ->
      pwt P (VSeq vals') (PMsg k') = true ->
      fsafe P true (map snd (m_fields (P k'))) (length sub) (des_fields P c f k' sub vals')).
    { intros k' sub vs Hl Hs Hv. apply des_fields_safe; auto. lia. }
    assert (Fld : forall i t, nth_error (map snd (m_fields (P k))) i = Some t ->
      exists fd, nth_error (m_fields (P k)) i = Some fd /\ snd fd = t /\ wfp t = true /\ pcmp_ok P t).
    { intros i t Ht. destruct (nth_error (m_fields (P k)) i) as [fd|] eqn:E;
        [|rewrite nth_error_map in Ht; unfold pfield in *; rewrite E in Ht; discriminate Ht].
      rewrite (map_nth_error snd _ _ E) in Ht.
      injection Ht as <-. exists fd. pose proof (nth_error_In _ _ E) as Hin. split; [reflexivity|]. split; [reflexivity|].
      split.
      - pose proof (HP k) as Hk. unfold wf_pmsg in Hk. rewrite !andb_true_iff in Hk.
        destruct Hk as [[[[[W _] _] _] _] _]. rewrite forallb_forall in W. now apply W.
      - specialize (Hcmp k). rewrite Forall_forall in Hcmp. now apply Hcmp. }
    pose proof (hfield_loop_ok data (numbers (P k)) (map snd (m_fields (P k)))
      (fun i wt prior pos H =>
         match nth_error (m_fields (P k)) i with
         | Some fd => hdes_field ok room P c (hdes_fields ok room P c f) (snd fd) data wt prior pos H
         | None => (RUB, prior, pos, H)
         end)
      (fun i wt prior pos =>
         match nth_error (m_fields (P k)) i with
         | Some fd => des_field P c (des_fields P c f) (snd fd) data wt prior pos
         | None => (RUB, prior, pos)
         end)) as Q.
    match type of Q with ?A -> ?B -> ?C -> _ => assert (Y1 : A); [|assert (Y2 : B); [|assert (Y3 : C)]] end.
    { intros i n Hn. apply numbers_from_nth in Hn as (fd & Hn & _). erewrite map_nth_error by eassumption. discriminate. }
    { intros i t wt prior pos Ht Hpr Hp. destruct (Fld i t Ht) as (fd & -> & <- & W1 & W2).
      apply (des_field_safe P true HP c Hds (des_fields P c f) (length data) Hsafe); auto. }
    { intros i t wt h pos H3 F3 Ht Hpr Hsh Hp Hg. destruct (Fld i t Ht) as (fd & -> & <- & W1 & W2).
      apply (hdes_field_ok (hdes_fields ok room P c f) (des_fields P c f) (length data) Hsafe); auto.
      intros k' sub vs Hl Hs Hv H5 F5 G5. apply IH; auto. lia. }
    pose proof (Q Y1 Y2 Y3 (S (length data)) vals' 0%nat H2 F ltac:(lia) T C1) as Q'. clear Q.
    destruct (hfield_loop _ _ _ _ _ _ _) as [[[r' l'] p'] H4]. cbn [fhout] in *.
    destruct Q' as (Q1 & Q2 & Q3 & Q4). split; [exact Q1|]. split; [congruence|]. split; [exact Q3|].
    assert (Cm : calm ok H H2) by (apply calm_next with H; [exact C3|apply calm_refl]).
    destruct Q4 as [[Q4 Qc]|(Qa & Qb & Qd)]; [left|right].
    - split; [exact Q4|]. now apply calm_trans with H2.
    - split; [exact Qa|]. split; [|exact Qd]. now apply calm_stopped with H2.
  Qed.
End PbHeapIn.

Theorem hdes_pb_item_ok ok room P c data fuel s k prior pos H F :
  wf_penv P -> pcmp_env P -> (forall k, pshaped P (bare (VSeq (m_dflt (P k)))) (PMsg k) = true) ->
  wfsz (Some s) = true -> small data -> (pos <= length data)%nat -> (length data - pos < fuel)%nat ->
  pwt P (erase prior) (PMsg k) = true -> pshaped P prior (PMsg k) = true -> good H (own prior) F ->
  phout ok P (PMsg k) (length data) pos H F (hdes_pb_item ok room P c data fuel s k prior pos H)
    (des_pb_item P c data fuel s k (erase prior) pos).
Proof.
  intros HP Hc HB Hs Hsm Hp Hfu Hw Hsh HG.
  destruct (pshaped_msg P k prior Hsh) as (l & -> & Hl). cbn [erase] in *. unfold hdes_pb_item, des_pb_item.
  assert (T : types_ok P l (map snd (m_fields (P k)))).
  { split; [|exact Hl]. cbn [pwt] in Hw. now rewrite forall2b_snd in Hw. }
  pose proof (hdes_protocol_ok ok room P c s data (des_fields P (pb_icfg c) fuel k)
    (hdes_fields ok room P (pb_icfg c) fuel k) (map snd (m_fields (P k))) l pos H F Hs Hsm Hp T HG) as S.
  assert (S' := S ltac:(intros sub vals Hsub Hv H1 F1 G1; apply hdes_fields_ok; auto; [unfold small in *; lia|lia])).
  destruct (hdes_protocol _ _ _ _ _ _ _) as [[[r h] p] H'].
  destruct S' as (vs & -> & S1 & S2 & S3 & S4). cbn [phout]. split; [exact S1|]. split; [exact S2|].
  split; [cbn [pshaped]; now rewrite pshaped_snd|].
  destruct S4 as [S4|(K1 & K2 & K3 & K4)]; [left; exact S4|right].
  repeat split; auto; try lia. cbn [erase pwt]. now rewrite forall2b_snd.
Qed.
