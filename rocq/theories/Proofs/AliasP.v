(** Views into a vector that is written to as well. *)

From Coq Require Import List NArith ZArith Lia Bool Arith.
From Coq Require Import ZifyBool ZifyNat ZifyN.
From Verif Require Import Base.Bytes Model.Types Model.Machine Model.Varint Model.Out Model.In
  Model.Duplex Model.Alias Spec.Leb128 Spec.Wire Spec.Copies Proofs.VarintP Proofs.OutP Proofs.InBase
  Proofs.InSafe Thm.Output Thm.Input.
Import ListNotations.
Local Open Scope N_scope.

(** A view shows the bytes [e] of [D]. *)
Definition shows (D : list byte) (w : view) (e : list byte) : Prop :=
  length e = v_len w /\ (v_off w + v_len w <= length D)%nat /\ window D (v_off w) (v_len w) = e.

Lemma window_firstn {A} (l : list A) p off n : (off + n <= p)%nat -> window (firstn p l) off n = window l off n.
Proof.
  intro H. unfold window. rewrite skipn_firstn_comm, firstn_firstn. f_equal. lia.
Qed.

Lemma forall2_nth D vars copies j w :
  Forall2 (shows D) vars copies -> nth_error vars j = Some w -> shows D w (nth j copies []).
Proof.
  intro H. revert j. induction H as [|w' e ws es H _ IH]; intros [|j] E; cbn in *; try discriminate.
  - now injection E as ->.
  - now apply IH.
Qed.

Section Sim.
  Variable room : nat -> nat -> nat.
  Hypothesis Hroom : forall cap n, (n <= room cap n)%nat.

  Definition capok (a : abuf) : Prop := (length (obuf (a_st a)) <= a_cap a)%nat.

  Lemma settle_st a st : a_st (settle room a st) = st.
  Proof. unfold settle. now destruct (_ <=? _)%nat. Qed.
  Lemma settle_cap a st : capok (settle room a st).
  Proof.
    unfold settle, capok. destruct (Nat.leb_spec (length (obuf st)) (a_cap a)); cbn [a_st a_cap]; auto.
  Qed.
  Lemma settle_blk a st : (a_blk a <= a_blk (settle room a st))%nat.
  Proof. unfold settle. destruct (_ <=? _)%nat; cbn [a_blk]; lia. Qed.
  Lemma settle_same a : capok a -> settle room a (a_st a) = a.
  Proof.
    unfold settle, capok. intro H. destruct (Nat.leb_spec (length (obuf (a_st a))) (a_cap a)); [|lia].
    now destruct a.
  Qed.
  Lemma settle_shrink a st : capok a -> (length (obuf st) <= length (obuf (a_st a)))%nat ->
    settle room a st = mkA (a_blk a) (a_cap a) st.
  Proof.
    unfold settle, capok. intros H H'. destruct (Nat.leb_spec (length (obuf st)) (a_cap a)); [reflexivity|lia].
  Qed.

  Variables (G : tenv) (c : cfg) (D : list byte).
  Hypothesis Hg : growable c = true.

  (** The bytes [D] are there, and the position is behind them. *)
  Record holding (st : ost) : Prop := {
    h_ok : ost_ok st;
    h_clean : clean st;
    h_pos : (length D <= opos st)%nat;
    h_data : firstn (length D) (obuf st) = D
  }.

  Lemma holding_outcome st p r st' : holding st -> outcome c st p r st' -> holding st'.
  Proof.
    intros [H1 H2 H3 H4] HO. split.
    - eapply outcome_ok_state; eauto.
    - eapply outcome_clean; eauto.
    - destruct HO as (e1 & e2 & k & _ & -> & _). cbn [opos]. lia.
    - destruct HO as (e1 & e2 & k & _ & -> & HL & _). destruct H1 as [H1 _]. cbn [obuf].
      rewrite <- H4 at 2.
      transitivity (firstn (length D) (firstn (opos st) (overwrite (obuf st ++ zeros k) (opos st) e1))).
      { rewrite firstn_firstn. f_equal. lia. }
      rewrite firstn_overwrite by (rewrite ?app_length, ?zeros_length; lia).
      rewrite firstn_firstn, firstn_app. replace (Nat.min (length D) (opos st) - length (obuf st))%nat with O by lia.
      cbn [firstn]. rewrite app_nil_r. f_equal. lia.
  Qed.

  Lemma holding_reserve st n r st' :
    wf_out c -> n < 2 ^ 63 -> holding st -> reserve c n st = (r, st') ->
    holding st' /\ opos st' = opos st
    /\ (r = ROk -> N.of_nat (opos st) + n <= N.of_nat (length (obuf st'))) /\ r <> RUB.
  Proof.
    intros Hwf Hn [H1 H2 H3 H4] E. unfold reserve in E. rewrite Hg in E.
    pose proof (enlarge_for_spec c n st Hwf Hg H1 Hn) as S. rewrite E in S. destruct S as [(k & -> & Hk & Hr) _].
    cbn [obuf opos]. rewrite app_length, zeros_length. destruct H1 as [P1 P2].
    split; [split; cbn [obuf opos]|split; [reflexivity|split]].
    - split; cbn [obuf opos]; rewrite app_length, zeros_length; [lia|].
      destruct Hk as [->|[_ Hk]]; [lia|]. unfold can_alloc in Hk. lia.
    - unfold clean in *. cbn [obuf opos]. rewrite skipn_app, H2.
      replace (opos st - length (obuf st))%nat with O by lia. cbn [skipn].
      unfold zeros. rewrite <- repeat_app. f_equal. rewrite app_length, repeat_length. lia.
    - exact H3.
    - rewrite firstn_app. replace (length D - length (obuf st))%nat with O by lia.
      cbn [firstn]. now rewrite app_nil_r.
    - intros ->. destruct Hr as [[_ Hr]|[[Hr|Hr] _]]; [lia|discriminate|discriminate].
    - intros ->. destruct Hr as [[Hr _]|[[Hr|Hr] _]]; discriminate.
  Qed.

  Lemma deref_shows w e a :
    holding (a_st a) -> shows D w e ->
    match deref w a with Some e' => e' = e | None => v_blk w <> a_blk a /\ (0 < v_len w)%nat end.
  Proof.
    intros [[H1 _] _ H3 H4] (S1 & S2 & S3). unfold deref.
    destruct (Nat.eqb_spec (v_len w) 0) as [E|E].
    - rewrite E in S1. now destruct e.
    - destruct (Nat.eqb_spec (v_blk w) (a_blk a)) as [B|B]; [|cbn; split; [exact B|lia]].
      destruct (Nat.leb_spec (v_off w + v_len w) (length (obuf (a_st a)))); [|lia]. cbn [andb].
      rewrite <- S3, <- H4. symmetry. apply window_firstn. exact S2.
  Qed.

  (** [vars] hold views of the strings [copies]. *)
  Variables (vars : list view) (copies : list (list byte)).
  Hypothesis Hvars : Forall2 (shows D) vars copies.

  Lemma vars_nth j w : nth_error vars j = Some w -> shows D w (nth j copies []).
  Proof.
    apply forall2_nth, Hvars.
  Qed.

  (** What is known after an action on the vector that should have ended like [f] on copies. *)
  Definition like (a : abuf) (out : res * ost) (ra : res * abuf) : Prop :=
    let '(r, a') := ra in
    (a_blk a <= a_blk a')%nat /\ capok a'
    /\ (out = (r, a_st a') /\ holding (a_st a')
        \/ r = RUB /\ exists w, In w vars /\ v_blk w <> a_blk a').

  Lemma like_on (f : act) a r st' : f (a_st a) = (r, st') -> holding st' -> like a (f (a_st a)) (on room f a).
  Proof.
    intros E H. unfold like, on. rewrite E. split; [apply settle_blk|]. split; [apply settle_cap|].
    left. now rewrite settle_st.
  Qed.

  Lemma put_view_like w e a :
    wf_out c -> capok a -> holding (a_st a) -> In w vars -> shows D w e ->
    holding (snd (put_bytes c e (a_st a))) ->
    like a (put_bytes c e (a_st a)) (put_view room c w a).
  Proof.
    intros Hwf Hc Hh Hin Hs Hend. pose proof Hs as (S1 & S2 & S3). unfold put_view.
    destruct (Nat.eqb_spec (v_len w) 0) as [E|E].
    { rewrite E in S1. destruct e; [|discriminate]. cbn. split; [lia|]. auto. }
    assert (Hp : put_bytes c e (a_st a) = put c e (a_st a)) by (destruct e; [now cbn in S1; lia|reflexivity]).
    rewrite Hp in *. unfold aseq, on, put in *. rewrite S1 in *. unfold seq in *.
    assert (Hn : N.of_nat (v_len w) < 2 ^ 63).
    { destruct Hh as [[h1 h2] _ h3 h4]. lia. }
    destruct (reserve c (N.of_nat (v_len w)) (a_st a)) as [r st1] eqn:ER.
    destruct (holding_reserve _ _ _ _ Hwf Hn Hh ER) as (Hh1 & Hp1 & Hr1 & Hub).
    destruct r; try (split; [apply settle_blk|split; [apply settle_cap|left; rewrite settle_st; auto]]).
    set (a1 := settle room a st1). assert (Ha1 : a_st a1 = st1) by apply settle_st.
    unfold copy_view. pose proof (deref_shows w e a1) as Hd. rewrite Ha1 in Hd. specialize (Hd Hh1 Hs).
    destruct (deref w a1) as [e'|].
    - subst e'. rewrite Ha1. destruct Hh1 as [[h1 h2] h3 h4 h5].
      destruct (Nat.leb_spec (v_off w + v_len w) (opos st1)); [|lia]. cbn [orb]. unfold on. rewrite Ha1.
      destruct (store e st1) as [r st2] eqn:E2.
      cbn [snd] in Hend. split; [|split; [apply settle_cap|left; rewrite settle_st; auto]].
      etransitivity; [apply settle_blk|apply settle_blk].
    - split; [apply settle_blk|]. split; [apply settle_cap|]. right. split; [reflexivity|]. exists w. tauto.
  Qed.

  Lemma ser_holding v t st : writing G c v t -> holding st -> holding (snd (ser G c v t st)).
  Proof.
    intros HW Hh. pose proof (writing_emits G c v t st HW (or_introl (h_clean _ Hh)) (h_ok _ Hh)) as HO.
    destruct (ser G c v t st) as [r st']. eapply holding_outcome; [exact Hh|apply HO].
  Qed.

  Lemma wr_item_like i a :
    capok a -> holding (a_st a) -> w_known (length vars) i = true ->
    writing G c (w_val copies i) (w_ty i) ->
    like a (ser G c (w_val copies i) (w_ty i) (a_st a)) (wr_item room G c vars i a).
  Proof.
    intros Hc Hh Hk HW. pose proof (ser_holding _ _ _ HW Hh) as Hend.
    destruct i as [v t|s j]; cbn [wr_item w_val w_ty w_known] in *.
    - destruct (ser G c v t (a_st a)) as [r st'] eqn:E. rewrite <- E. eapply like_on; eauto.
    - apply Nat.ltb_lt in Hk. destruct (nth_error vars j) as [w|] eqn:Ej; [|apply nth_error_None in Ej; lia].
      pose proof (vars_nth _ _ Ej) as Hs. pose proof (proj1 Hs) as Hl. cbn [ser] in *. rewrite Hl in *.
      set (e := nth j copies []) in *. unfold aseq, on. unfold seq in Hend |- *.
      pose proof (emits_size c true s (N.of_nat (v_len w)) (w_size _ _ _ _ HW)) as HE.
      assert (Hw : wfsz s = true) by exact (w_wf _ _ _ _ HW). specialize (HE Hw (w_cfg _ _ _ _ HW)).
      assert (Hsm : N.of_nat (length (fst (pdone (wire_size (fmt_of c) s (N.of_nat (v_len w)))))) < 2 ^ 63).
      { pose proof (w_small _ _ _ _ HW) as S. unfold encode in S. cbn [enc] in S. cbn [pdone fst].
        rewrite Hl in S. cbn [pseq pdone fst snd] in S. rewrite app_length in S. lia. }
      specialize (HE Hsm (a_st a) (h_ok _ Hh) (fun _ => h_clean _ Hh)).
      destruct (ser_size c (sz_of c s) (N.of_nat (v_len w)) (a_st a)) as [r st1] eqn:E1.
      destruct HE as [HE _]. pose proof (holding_outcome _ _ _ _ Hh HE) as Hh1.
      destruct r; try (split; [apply settle_blk|split; [apply settle_cap|left; rewrite settle_st; auto]]).
      pose proof (put_view_like w e (settle room a st1) (w_cfg _ _ _ _ HW) (settle_cap _ _)) as L.
      rewrite settle_st in L. specialize (L Hh1 (nth_error_In _ _ Ej) Hs Hend). unfold like in L |- *.
      destruct (put_view room c w (settle room a st1)) as [r a'].
      destruct L as (L1 & L2 & L3). split; [|auto]. etransitivity; [apply settle_blk|exact L1].
  Qed.

  Lemma wr_items_like l : forall a,
    capok a -> holding (a_st a) -> forallb (w_known (length vars)) l = true ->
    Forall (fun i => writing G c (w_val copies i) (w_ty i)) l ->
    like a (ser_many (ser G c) (map (w_val copies) l) (map w_ty l) (a_st a)) (wr_items room G c vars l a).
  Proof.
    induction l as [|i l IH]; intros a Hc Hh Hk HF; cbn [map ser_many wr_items].
    - cbn. split; [lia|]. split; [exact Hc|]. left. auto.
    - cbn [forallb] in Hk. apply andb_true_iff in Hk as [Hk1 Hk2]. inversion HF as [|? ? HW HF']; subst.
      pose proof (wr_item_like i a Hc Hh Hk1 HW) as L. unfold aseq, seq. unfold like in L.
      destruct (wr_item room G c vars i a) as [r a1]. destruct L as (L1 & L2 & L3).
      destruct L3 as [[-> L3]|[-> L3]]; [|cbn; auto].
      destruct r; try (cbn; auto; fail).
      specialize (IH a1 L2 L3 Hk2 HF'). unfold like in IH |- *.
      destruct (wr_items room G c vars l a1) as [r a2]. destruct IH as (I1 & I2 & I3). split; [lia|]. auto.
  Qed.

  (** The whole call: fitting does not move the vector. *)
  Lemma aout_call_like l a :
    capok a -> holding (a_st a) -> forallb (w_known (length vars)) l = true ->
    Forall (fun i => writing G c (w_val copies i) (w_ty i)) l ->
    let '(r, a') := aout_call room G c vars l a in
    (a_blk a <= a_blk a')%nat /\ capok a'
    /\ (out_call G c (map (w_val copies) l) (map w_ty l) (a_st a) = (r, a_st a')
        \/ r = RUB /\ exists w, In w vars /\ v_blk w <> a_blk a').
  Proof.
    intros Hc Hh Hk HF. pose proof (wr_items_like l a Hc Hh Hk HF) as L. unfold like in L.
    unfold aout_call, out_call. destruct (wr_items room G c vars l a) as [r a1]. destruct L as (L1 & L2 & L3).
    destruct (growable c && negb (nofit c) && negb (exact_enlarger c)).
    - destruct L3 as [[-> L3]|[-> L3]].
      + destruct (fit_size c (length (obuf (a_st a))) r (a_st a1)) as [r' st'].
        split; [etransitivity; [exact L1|apply settle_blk]|]. split; [apply settle_cap|]. left. now rewrite settle_st.
      + cbn [fit_size]. rewrite settle_same by exact L2. auto.
    - split; [exact L1|]. split; [exact L2|]. destruct L3 as [[-> _]|L3]; auto.
  Qed.

  (** ** Without a move *)

  Lemma settle_stay a st : (length (obuf st) <= a_cap a)%nat -> settle room a st = mkA (a_blk a) (a_cap a) st.
  Proof. intro H. unfold settle. destruct (Nat.leb_spec (length (obuf st)) (a_cap a)); [reflexivity|lia]. Qed.

  Lemma store_length e st : length (obuf (snd (store e st))) = length (obuf st).
  Proof.
    unfold store. destruct (Nat.leb_spec (opos st + length e) (length (obuf st))); [|reflexivity].
    cbn [snd obuf]. now apply overwrite_length.
  Qed.

  Lemma put_view_stay w e a :
    wf_out c -> holding (a_st a) -> v_blk w = a_blk a -> shows D w e ->
    (length (obuf (snd (put_bytes c e (a_st a)))) <= a_cap a)%nat ->
    put_view room c w a
    = (fst (put_bytes c e (a_st a)), mkA (a_blk a) (a_cap a) (snd (put_bytes c e (a_st a)))).
  Proof.
    intros Hwf Hh Hb Hs Hend. pose proof Hs as (S1 & S2 & S3). unfold put_view.
    destruct (Nat.eqb_spec (v_len w) 0) as [E|E].
    { rewrite E in S1. destruct e; [|discriminate]. cbn. now destruct a. }
    assert (Hp : put_bytes c e (a_st a) = put c e (a_st a)) by (destruct e; [now cbn in S1; lia|reflexivity]).
    rewrite Hp in *. unfold aseq, on, put in *. rewrite S1 in *. unfold seq in *.
    assert (Hn : N.of_nat (v_len w) < 2 ^ 63).
    { destruct Hh as [[h1 h2] _ h3 h4]. lia. }
    destruct (reserve c (N.of_nat (v_len w)) (a_st a)) as [r st1] eqn:ER.
    destruct (holding_reserve _ _ _ _ Hwf Hn Hh ER) as (Hh1 & Hp1 & Hr1 & Hub).
    destruct r; try (cbn [fst snd] in *; rewrite settle_stay by exact Hend; reflexivity).
    rewrite store_length in Hend. rewrite settle_stay by exact Hend.
    unfold copy_view. pose proof (deref_shows w e (mkA (a_blk a) (a_cap a) st1) Hh1 Hs) as Hd.
    destruct (deref w (mkA (a_blk a) (a_cap a) st1)) as [e'|]; [subst e'|cbn [a_blk] in Hd; tauto].
    cbn [a_st]. destruct Hh1 as [[h1 h2] h3 h4 h5].
    destruct (Nat.leb_spec (v_off w + v_len w) (opos st1)); [|lia]. cbn [orb]. unfold on. cbn [a_st].
    pose proof (store_length e st1) as HL. destruct (store e st1) as [r st2]. cbn [fst snd] in *.
    rewrite settle_stay by (cbn [a_cap]; lia). reflexivity.
  Qed.

  Lemma put_bytes_longer e st :
    wf_out c -> N.of_nat (length e) < 2 ^ 63 -> holding st ->
    (length (obuf st) <= length (obuf (snd (put_bytes c e st))))%nat.
  Proof.
    intros Hwf He Hh. pose proof (emits_put_bytes c true e Hwf He st (h_ok _ Hh) (fun _ => h_clean _ Hh)) as HO.
    destruct (put_bytes c e st) as [r st']. destruct HO as [(e1 & e2 & k & _ & -> & HL & _) _]. cbn [snd obuf].
    rewrite overwrite_length; rewrite app_length, zeros_length; lia.
  Qed.

  Lemma wr_item_stay i a :
    capok a -> holding (a_st a) -> w_known (length vars) i = true ->
    writing G c (w_val copies i) (w_ty i) -> Forall (fun w => v_blk w = a_blk a) vars ->
    (length (obuf (snd (ser G c (w_val copies i) (w_ty i) (a_st a)))) <= a_cap a)%nat ->
    wr_item room G c vars i a
    = (fst (ser G c (w_val copies i) (w_ty i) (a_st a)),
       mkA (a_blk a) (a_cap a) (snd (ser G c (w_val copies i) (w_ty i) (a_st a)))).
  Proof.
    intros Hc Hh Hk HW Hb Hend.
    destruct i as [v t|s j]; cbn [wr_item w_val w_ty w_known] in *.
    - unfold on. destruct (ser G c v t (a_st a)) as [r st']. cbn [fst snd] in *. now rewrite settle_stay.
    - apply Nat.ltb_lt in Hk. destruct (nth_error vars j) as [w|] eqn:Ej; [|apply nth_error_None in Ej; lia].
      pose proof (vars_nth _ _ Ej) as Hs. pose proof Hs as (Hl & Hl' & _). cbn [ser] in *. rewrite Hl in *.
      set (e := nth j copies []) in *. unfold aseq, on. unfold seq in Hend |- *.
      pose proof (emits_size c true s (N.of_nat (v_len w)) (w_size _ _ _ _ HW)) as HE.
      assert (Hw : wfsz s = true) by exact (w_wf _ _ _ _ HW). specialize (HE Hw (w_cfg _ _ _ _ HW)).
      assert (Hsm : N.of_nat (length (fst (pdone (wire_size (fmt_of c) s (N.of_nat (v_len w)))))) < 2 ^ 63
                    /\ N.of_nat (length e) < 2 ^ 63).
      { pose proof (w_small _ _ _ _ HW) as S. unfold encode in S. cbn [enc] in S. cbn [pdone fst].
        fold e in S. rewrite Hl in S. cbn [pseq pdone fst snd] in S. rewrite app_length in S. lia. }
      destruct Hsm as [Hsm He].
      specialize (HE Hsm (a_st a) (h_ok _ Hh) (fun _ => h_clean _ Hh)).
      destruct (ser_size c (sz_of c s) (N.of_nat (v_len w)) (a_st a)) as [r st1] eqn:E1.
      destruct HE as [HE _]. pose proof (holding_outcome _ _ _ _ Hh HE) as Hh1.
      destruct r; try (cbn [fst snd] in *; rewrite settle_stay by exact Hend; reflexivity).
      pose proof (put_bytes_longer e st1 (w_cfg _ _ _ _ HW) He Hh1) as HL.
      rewrite settle_stay by lia.
      rewrite (put_view_stay w e); cbn [a_st a_cap a_blk]; auto.
      + exact (w_cfg _ _ _ _ HW).
      + rewrite Forall_forall in Hb. apply Hb. eapply nth_error_In; eauto.
  Qed.

  Lemma ser_longer v t st : writing G c v t -> holding st ->
    (length (obuf st) <= length (obuf (snd (ser G c v t st))))%nat.
  Proof.
    intros HW Hh. pose proof (writing_emits G c v t st HW (or_introl (h_clean _ Hh)) (h_ok _ Hh)) as HO.
    destruct (ser G c v t st) as [r st']. destruct HO as [(e1 & e2 & k & _ & -> & HL & _) _]. cbn [snd obuf].
    rewrite overwrite_length; rewrite app_length, zeros_length; lia.
  Qed.

  Lemma ser_many_longer l : forall st,
    holding st -> Forall (fun i => writing G c (w_val copies i) (w_ty i)) l ->
    (length (obuf st) <= length (obuf (snd (ser_many (ser G c) (map (w_val copies) l) (map w_ty l) st))))%nat.
  Proof.
    induction l as [|i l IH]; intros st Hh HF; cbn [map ser_many]; [cbn; lia|].
    inversion HF as [|? ? HW HF']; subst.
    pose proof (ser_longer _ _ _ HW Hh) as H1. pose proof (ser_holding _ _ _ HW Hh) as H2. unfold seq.
    destruct (ser G c (w_val copies i) (w_ty i) st) as [r st1]. cbn [snd] in *.
    destruct r; auto. specialize (IH st1 H2 HF'). lia.
  Qed.

  Lemma ser_many_holding l : forall st,
    holding st -> Forall (fun i => writing G c (w_val copies i) (w_ty i)) l ->
    holding (snd (ser_many (ser G c) (map (w_val copies) l) (map w_ty l) st)).
  Proof.
    induction l as [|i l IH]; intros st Hh HF; cbn [map ser_many]; [exact Hh|].
    inversion HF as [|? ? HW HF']; subst. pose proof (ser_holding _ _ _ HW Hh) as H2. unfold seq.
    destruct (ser G c (w_val copies i) (w_ty i) st) as [r st1]. cbn [snd] in *.
    destruct r; auto.
  Qed.

  Lemma wr_items_stay l : forall a,
    capok a -> holding (a_st a) -> forallb (w_known (length vars)) l = true ->
    Forall (fun i => writing G c (w_val copies i) (w_ty i)) l -> Forall (fun w => v_blk w = a_blk a) vars ->
    (length (obuf (snd (ser_many (ser G c) (map (w_val copies) l) (map w_ty l) (a_st a)))) <= a_cap a)%nat ->
    wr_items room G c vars l a
    = (fst (ser_many (ser G c) (map (w_val copies) l) (map w_ty l) (a_st a)),
       mkA (a_blk a) (a_cap a) (snd (ser_many (ser G c) (map (w_val copies) l) (map w_ty l) (a_st a)))).
  Proof.
    induction l as [|i l IH]; intros a Hc Hh Hk HF Hb Hend; cbn [map ser_many wr_items] in *.
    - cbn. now destruct a.
    - cbn [forallb] in Hk. apply andb_true_iff in Hk as [Hk1 Hk2]. inversion HF as [|? ? HW HF']; subst.
      pose proof (wr_item_stay i a Hc Hh Hk1 HW Hb) as L. unfold aseq, seq in *.
      pose proof (ser_longer _ _ _ HW Hh) as H1. pose proof (ser_holding _ _ _ HW Hh) as H2.
      destruct (ser G c (w_val copies i) (w_ty i) (a_st a)) as [r st1]. cbn [fst snd] in *.
      destruct r; cbn [fst snd] in *; try (rewrite L by exact Hend; reflexivity).
      pose proof (ser_many_longer l st1 H2 HF') as H3.
      rewrite L by lia. apply (IH (mkA (a_blk a) (a_cap a) st1)); auto. unfold capok. cbn [a_st a_cap]. lia.
  Qed.

  Lemma aout_call_stay l a :
    capok a -> holding (a_st a) -> forallb (w_known (length vars)) l = true ->
    Forall (fun i => writing G c (w_val copies i) (w_ty i)) l -> Forall (fun w => v_blk w = a_blk a) vars ->
    (length (obuf (snd (ser_many (ser G c) (map (w_val copies) l) (map w_ty l) (a_st a)))) <= a_cap a)%nat ->
    aout_call room G c vars l a
    = (fst (out_call G c (map (w_val copies) l) (map w_ty l) (a_st a)),
       mkA (a_blk a) (a_cap a) (snd (out_call G c (map (w_val copies) l) (map w_ty l) (a_st a)))).
  Proof.
    intros Hc Hh Hk HF Hb Hend. unfold aout_call, out_call.
    rewrite wr_items_stay by assumption. pose proof (h_ok _ (ser_many_holding l _ Hh HF)) as [Ho _].
    destruct (ser_many (ser G c) (map (w_val copies) l) (map w_ty l) (a_st a)) as [r st1]. cbn [fst snd a_st] in *.
    destruct (growable c && negb (nofit c) && negb (exact_enlarger c)); [|reflexivity].
    destruct (fit_size c (length (obuf (a_st a))) r st1) as [r' st'] eqn:EF. cbn [fst snd].
    rewrite settle_stay; [reflexivity|]. cbn [a_cap].
    unfold fit_size, buf_resize in EF.
    destruct r; try (injection EF as <- <-; exact Hend);
      (destruct (_ <=? _)%nat in EF; [|injection EF as <- <-; exact Hend]).
    all: destruct (N.leb_spec (N.of_nat (opos st1)) (N.of_nat (length (obuf st1)))) as [Hle|Hle]; [|lia].
    all: injection EF as <- <-; cbn [obuf]; rewrite firstn_length; lia.
  Qed.
End Sim.

(** ** Reading *)

Lemma rd_view_des G c fuel blk data s pos :
  wfsz (Some (dsize c)) = true -> wfsz s = true -> small data -> (pos <= length data)%nat ->
  let '(r, w, p) := rd_view c blk data s pos in
  (exists x, des G c data fuel (TView (VwSized s)) (VBytes []) pos = (r, x, p)
    /\ (r = ROk -> x = VBytes (window data (v_off w) (v_len w))))
  /\ (r = ROk -> (v_off w + v_len w <= length data)%nat /\ v_blk w = blk /\ length (window data (v_off w) (v_len w)) = v_len w).
Proof.
  intros Hd Hs Hsm Hp. unfold rd_view, des. cbn [des_ty].
  assert (Hz : wfsz (Some (sz_of c s)) = true) by (unfold sz_of; destruct s; assumption).
  pose proof (des_size_safe c (sz_of c s) Hz data pos Hsm Hp) as S. cbn beta in S.
  assert (Hwin : forall off n, (off + n <= length data)%nat -> length (window data off n) = n).
  { intros off n H. unfold window. rewrite firstn_length, skipn_length. lia. }
  destruct (des_size c data (sz_of c s) pos) as [[r n] p'].
  destruct r; try (split; [eexists; split; [reflexivity|discriminate]|discriminate]).
  assert (Hp' : (p' <= length data)%nat) by (cbn in S; tauto).
  destruct (sz_of c s).
  - unfold load. destruct (Nat.leb_spec (pos + (length data - pos)) (length data)); [|lia].
    cbn [v_off v_len v_blk]. split; [eexists; split; reflexivity|]. intros _. rewrite Hwin by lia. repeat split; lia.
  - rewrite (remaining_small data p' Hsm Hp'). destruct (N.ltb_spec (N.of_nat (length data - p')) n).
    { split; [eexists; split; [reflexivity|discriminate]|discriminate]. }
    unfold load. destruct (Nat.leb_spec (p' + N.to_nat n) (length data)); [|lia].
    cbn [v_off v_len v_blk]. split; [eexists; split; reflexivity|]. intros _. rewrite Hwin by lia. repeat split; lia.
  - rewrite (remaining_small data p' Hsm Hp'). destruct (N.ltb_spec (N.of_nat (length data - p')) n).
    { split; [eexists; split; [reflexivity|discriminate]|discriminate]. }
    unfold load. destruct (Nat.leb_spec (p' + N.to_nat n) (length data)); [|lia].
    cbn [v_off v_len v_blk]. split; [eexists; split; reflexivity|]. intros _. rewrite Hwin by lia. repeat split; lia.
Qed.

Lemma rd_items_des G c fuel blk data l : forall pos,
  small data -> (pos <= length data)%nat ->
  Forall (fun i => reading G c data (r_ty i) /\ wt G (r_prior i) (r_ty i) = true) l ->
  let '(r, vs, ws, p) := rd_items G c fuel blk data l pos in
  exists xs, in_call G c data fuel (map r_ty l) (map r_prior l) pos = (r, xs, p)
    /\ (r = ROk -> vs = r_vals l xs /\ Forall2 (shows data) ws (r_views l xs) /\ Forall (fun w => v_blk w = blk) ws
                   /\ (pos <= p <= length data)%nat).
Proof.
  induction l as [|i l IH]; intros pos Hsm Hp HF; cbn [rd_items map].
  - exists []. split; [reflexivity|]. intros _. repeat split; auto; constructor.
  - inversion HF as [|? ? [HR Hw] HF']; subst. unfold in_call in *. cbn [des_many].
    destruct i as [t x|s]; cbn [r_ty r_prior] in *.
    + destruct (des G c data fuel t x pos) as [[r v] p1] eqn:E.
      destruct (in_position_and_target_valid _ _ _ _ _ _ _ _ _ _ HR Hp Hw E) as [P _].
      destruct r; try (eexists; split; [reflexivity|discriminate]).
      specialize (IH p1 Hsm (proj2 P) HF').
      destruct (rd_items G c fuel blk data l p1) as [[[r vs] ws] p2]. destruct IH as (xs & IHe & IH).
      cbn [tl]. rewrite IHe. eexists. split; [reflexivity|]. intro Hr. destruct (IH Hr) as (-> & I2 & I3 & I4).
      cbn [r_vals r_views]. repeat split; auto; lia.
    + pose proof (rd_view_des G c fuel blk data s pos (r_size _ _ _ _ HR) (r_wf _ _ _ _ HR) Hsm Hp) as V.
      destruct (rd_view c blk data s pos) as [[r w] p1]. destruct V as [(x & E & V1) V2].
      destruct (in_position_and_target_valid _ _ _ _ _ _ _ _ _ _ HR Hp Hw E) as [P _].
      rewrite E. destruct r; try (eexists; split; [reflexivity|discriminate]).
      specialize (IH p1 Hsm (proj2 P) HF').
      destruct (rd_items G c fuel blk data l p1) as [[[r vs] ws] p2]. destruct IH as (xs & IHe & IH).
      cbn [tl]. rewrite IHe. eexists. split; [reflexivity|]. intro Hr. destruct (IH Hr) as (-> & I2 & I3 & I4).
      destruct (V2 eq_refl) as (W1 & W2 & W3). rewrite (V1 eq_refl). cbn [r_vals r_views].
      split; [reflexivity|]. split; [constructor; [|exact I2]; split; auto|]. split; [constructor; auto|]. lia.
Qed.
