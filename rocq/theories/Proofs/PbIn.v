(** Reading arbitrary bytes as a protocol buffer message: bounds, validity of the target,
    possible outcomes. *)

From Coq Require Import List NArith ZArith Lia Bool Arith.
From Coq Require Import ZifyBool ZifyNat ZifyN.
From Verif Require Import Base.Bytes Model.Types Model.Machine Model.Varint Model.Out Model.In
  Model.Loops Model.Protocol Model.Pb
  Spec.Leb128 Spec.Wire Proofs.VarintP Proofs.OutP Proofs.InBase Proofs.InSafe Proofs.InFuel Proofs.ProtoP
  Proofs.PbOut.
Import ListNotations.
Local Open Scope N_scope.

Ltac Zify.zify_post_hook ::= Z.div_mod_to_equations.

(** ** Lists of members *)

Lemma forall2b_nth {A B} (f : A -> B -> bool) l m i x :
  forall2b f l m = true -> nth_error l i = Some x ->
  exists y, nth_error m i = Some y /\ f x y = true.
Proof.
  revert m i. induction l as [|a l IH]; intros [|b m] [|i]; cbn; try discriminate.
  - intros H [= <-]. apply andb_true_iff in H as [H _]. eauto.
  - intro H. apply andb_true_iff in H as [_ H]. now apply IH.
Qed.

Lemma forall2b_nth_l {A B} (f : A -> B -> bool) l m i y :
  forall2b f l m = true -> nth_error m i = Some y ->
  exists x, nth_error l i = Some x /\ f x y = true.
Proof.
  revert m i. induction l as [|a l IH]; intros [|b m] [|i]; cbn; try discriminate.
  - intros H [= <-]. apply andb_true_iff in H as [H _]. eauto.
  - intro H. apply andb_true_iff in H as [_ H]. now apply IH.
Qed.

Lemma forall2b_set {A B} (f : A -> B -> bool) l m i x y :
  forall2b f l m = true -> nth_error m i = Some y -> f x y = true ->
  forall2b f (set_nth i x l) m = true.
Proof.
  revert m i. induction l as [|a l IH]; intros [|b m] [|i]; cbn; try discriminate.
  - intros H [= ->] Hx. apply andb_true_iff in H as [_ H]. now rewrite Hx, H.
  - intros H Hn Hx. apply andb_true_iff in H as [-> H]. cbn. now apply (IH m i).
Qed.

Lemma forall2b_snd {A B C} (f : A -> C -> bool) l (m : list (B * C)) :
  forall2b (fun x fd => f x (snd fd)) l m = forall2b f l (map snd m).
Proof.
  revert m. induction l as [|a l IH]; intros [|b m]; cbn; try reflexivity. now rewrite IH.
Qed.

Lemma index_of_lt nums n i : index_of nums n = Some i -> nth_error nums i = Some n.
Proof.
  revert i. induction nums as [|x nums IH]; intro i; cbn [index_of]; [discriminate|].
  destruct (x =? n) eqn:E.
  - intros [= <-]. cbn. f_equal. lia.
  - destruct (index_of nums n) as [j|]; [|discriminate]. intros [= <-]. cbn. now apply IH.
Qed.

Lemma numbers_from_nth mp idx fs i n :
  nth_error (numbers_from mp idx fs) i = Some n ->
  exists fd, nth_error fs i = Some fd /\ n = number_from_struct mp (fst fd) (idx + i).
Proof.
  revert idx i. induction fs as [|fd fs IH]; intros idx [|i]; cbn; try discriminate.
  - intros [= <-]. exists fd. now rewrite Nat.add_0_r.
  - intro H. apply IH in H as (fd' & H1 & H2). exists fd'.
    split; [exact H1|]. now rewrite Nat.add_succ_r.
Qed.

(** ** Containers *)

Definition ck_laws (Q : val -> bool) (ck : ckind) : Prop :=
  match ck with CSeq _ _ => True | CSet k _ => order_ok Q k end.

Lemma cinsert_ok Q ck l x :
  ck_laws Q ck -> forallb Q l && ckok ck l = true -> Q x = true ->
  forallb Q (cinsert ck l x) && ckok ck (cinsert ck l x) = true.
Proof.
  destruct ck as [ct rsv|k rsv]; cbn [ck_laws ckok cinsert]; intros Hc Hl Hx.
  - rewrite andb_true_r in *. rewrite forallb_app, Hl. cbn. now rewrite Hx.
  - now apply (assoc_insert_ok Q).
Qed.

Definition strok (w : nat) (x : val) : bool :=
  match x with VSeq m => forallb (numok w) m | _ => false end.

Definition entry_ok (P : penv) (kt vt : pty) (x : val) : bool :=
  match x with VSeq [a; b] => pwt P a kt && pwt P b vt | _ => false end.

Lemma pwt_msgs P ck k l :
  pwt P (VSeq l) (PMsgs ck k) = forallb (fun x => pwt P x (PMsg k)) l && ckok ck l.
Proof.
  cbn [pwt]. f_equal. induction l as [|x l IH]; cbn [forallb]; [reflexivity|].
  rewrite IH. f_equal. now destruct x.
Qed.

(** The comparisons used by sets and maps are strict orders on the elements. *)
Fixpoint pcmp_ok (P : penv) (t : pty) : Prop :=
  match t with
  | PFixes ck w | PVars ck w _ _ => ck_laws (numok w) ck
  | PStrs ck _ w => ck_laws (strok w) ck
  | PMsgs ck k => ck_laws (fun x => pwt P x (PMsg k)) ck
  | PMap ak kt vt => order_ok (entry_ok P kt vt) ak /\ pcmp_ok P kt /\ pcmp_ok P vt
  | _ => True
  end.

Definition pcmp_env (P : penv) : Prop :=
  forall k, Forall (fun fd => pcmp_ok P (snd fd)) (m_fields (P k)).

Fixpoint no_bool (t : pty) : bool :=
  match t with
  | PBool => false
  | PMap _ kt vt => no_bool kt && no_bool vt
  | _ => true
  end.

Lemma pwt_pdflt P t : wf_penv P -> pwt P (pdflt P t) t = true.
Proof.
  intro HP. destruct t; cbn [pdflt pwt forallb]; auto;
    try (pose proof (pow256_pos w); lia); try (destruct ck; reflexivity).
  - specialize (HP k). unfold wf_pmsg in HP. rewrite !andb_true_iff in HP. apply HP.
  - rewrite repeat_length, Nat.eqb_refl. apply forallb_forall. intros x Hx. apply repeat_spec in Hx.
    subst x. cbn. pose proof (pow256_pos w). lia.
Qed.

Lemma clear_member_wt P t v : pwt P v t = true -> pwt P (clear_member t v) t = true.
Proof. destruct t; cbn [clear_member]; auto; intros _; cbn; now destruct ck. Qed.

Lemma clear_members_wt P ts l :
  forall2b (fun x t => pwt P x t) l ts = true ->
  forall2b (fun x t => pwt P x t) (clear_members ts l) ts = true.
Proof.
  revert l. induction ts as [|t ts IH]; intros [|v l]; cbn; try discriminate; auto.
  intro H. apply andb_true_iff in H as [H1 H2].
  rewrite clear_member_wt by exact H1. cbn. now apply IH.
Qed.

(** ** Reads that make progress *)

Definition nprog (f : nat -> res * N * nat) (n : nat) (B : N) : Prop :=
  forall pos, (pos <= n)%nat ->
    match f pos with
    | (ROk, x, p) => (pos < p <= n)%nat /\ x < B
    | (RErr _, _, p) => p = pos
    | _ => False
    end.

Lemma varint_prog w zz prior data :
  wfw w = true -> nprog (des_varint w zz prior data) (length data) (pow256 w).
Proof.
  intros Hw pos Hp. rewrite (des_varint_eq w zz prior data pos Hw Hp).
  destruct (leb_value _) as [[v k]|] eqn:E; [|reflexivity].
  pose proof (leb_value_bounds _ _ _ E) as B. rewrite firstn_length, skipn_length in B.
  split; [lia|]. apply unwire_lt; [exact Hw|].
  apply N.mod_upper_bound. pose proof (pow256_pos w). lia.
Qed.

Lemma scalar_prog c w prior data :
  (0 < w)%nat -> small data -> nprog (des_scalar c data w prior) (length data) (pow256 w).
Proof.
  intros Hw Hsm pos Hp. rewrite (des_scalar_eq c data w prior pos Hsm Hp).
  destruct (pos + w <=? length data)%nat eqn:E; [|reflexivity].
  split; [lia|]. pose proof (scalar_val_lt c (window data pos w)) as H.
  rewrite window_length in H by lia. exact H.
Qed.

Section PbSafe.
  Variables (P : penv) (ub : bool).
  Hypothesis HP : wf_penv P.

  Definition psafe (t : pty) (n pos : nat) (x : dres) : Prop :=
    let '(r, v, p) := x in (pos <= p <= n)%nat /\ pwt P v t = true /\ allowed ub false r.

  Definition fsafe (ts : list pty) (n : nat) (x : res * list val * nat) : Prop :=
    let '(r, vs, p) := x in
    (p <= n)%nat /\ forall2b (fun x t => pwt P x t) vs ts = true /\ allowed ub false r.

  Lemma field_loop_safe data nums ts fld :
    (forall i n, nth_error nums i = Some n -> nth_error ts i <> None) ->
    (forall i t wt prior pos, nth_error ts i = Some t -> pwt P prior t = true ->
       (0 < pos <= length data)%nat -> psafe t (length data) pos (fld i wt prior pos)) ->
    forall n vals pos, (length data - pos < n)%nat -> (pos <= length data)%nat ->
      forall2b (fun x t => pwt P x t) vals ts = true ->
      fsafe ts (length data) (field_loop data nums fld n vals pos).
  Proof.
    intros Hn Hf. induction n as [|n IH]; intros vals pos Hlt Hp Hw; [lia|].
    cbn [field_loop]. destruct (pos <? length data)%nat eqn:E.
    2:{ cbn. split; [lia|]. auto. }
    pose proof (varint_prog 4 false 0 data eq_refl pos Hp) as HV.
    destruct (des_varint 4 false 0 data pos) as [[r tag] pos1].
    destruct r; try (exfalso; exact HV); [|subst pos1; cbn; split; [lia|]; auto].
    destruct HV as [HV _].
    destruct (index_of nums (N.shiftr tag 3)) as [i|] eqn:Ei.
    - apply index_of_lt in Ei. pose proof (Hn _ _ Ei) as Ht.
      destruct (nth_error ts i) as [t|] eqn:Et; [|congruence].
      destruct (forall2b_nth_l _ _ _ _ _ Hw Et) as (x & Hx & Hwx). rewrite Hx.
      specialize (Hf i t (N.land tag 7) x pos1 Et Hwx ltac:(lia)).
      destruct (fld i (N.land tag 7) x pos1) as [[r v] pos2]. destruct Hf as (F1 & F2 & F3).
      assert (Hs : forall2b (fun x t => pwt P x t) (set_nth i v vals) ts = true)
        by (eapply forall2b_set; eauto).
      destruct r; try (cbn; split; [lia|]; auto).
      apply IH; [lia|lia|exact Hs].
    - destruct (N.shiftr tag 3 =? 0); [cbn; split; [lia|]; auto|].
      apply IH; [lia|lia|exact Hw].
  Qed.

  Lemma packed_loop_safe fetch ins stop N' (Q : list val -> bool) w :
    nprog fetch N' (pow256 w) ->
    (forall l x, Q l = true -> numok w x = true -> Q (ins l x) = true) ->
    forall n acc pos, (N' - pos < n)%nat -> (pos <= N')%nat -> Q acc = true ->
      match packed_loop fetch ins stop n acc pos with
      | (r, VSeq l, p) => (pos <= p <= N')%nat /\ Q l = true /\ allowed ub false r
      | _ => False
      end.
  Proof.
    intros Hf Hi. induction n as [|n IH]; intros acc pos Hlt Hp Ha; [lia|].
    cbn [packed_loop]. destruct (N.of_nat pos <? stop); [|split; [lia|]; auto].
    specialize (Hf pos Hp). destruct (fetch pos) as [[r x] p].
    destruct r; try (exfalso; exact Hf); [|subst p; split; [lia|]; auto].
    destruct Hf as [H1 H2].
    assert (HQ : Q (ins acc (VN x)) = true) by (apply Hi; [exact Ha|cbn; lia]).
    specialize (IH _ p ltac:(lia) ltac:(lia) HQ).
    destruct (packed_loop _ _ _ _ _ p) as [[r v] p']. destruct v; try exact IH.
    destruct IH as (I1 & I2 & I3). split; [lia|]. auto.
  Qed.

  Lemma no_types_wf : wf_env no_types.
  Proof. exact wf_no_types. Qed.

  Lemma wt_numok w x : wt no_types x (scalar_ty w) = numok w x.
  Proof. unfold scalar_ty. destruct x; reflexivity. Qed.

  Lemma forallb_numok w l : forallb (fun x => wt no_types x (scalar_ty w)) l = forallb (numok w) l.
  Proof. induction l as [|x l IH]; cbn [forallb]; [reflexivity|]. now rewrite IH, wt_numok. Qed.

  Lemma vec_scalar_safe c data s contig w rec :
    small data -> wfw w = true -> wfsz (Some (dsize c)) = true -> wfsz s = true ->
    forall prior pos, (pos <= length data)%nat -> strok w prior = true ->
    match des_ty no_types c data rec (TVec s contig (scalar_ty w)) prior pos with
      (r, v, p) => (pos <= p <= length data)%nat /\ strok w v = true /\ allowed ub false r
    end.
  Proof.
    intros Hsm Hw Hd Hs prior pos Hp Hpr.
    assert (Hwf : wf no_types (TVec s contig (scalar_ty w)) = true).
    { cbn [wf]. now rewrite Hs, scalar_ty_wf. }
    assert (E : forall v, wt no_types v (TVec s contig (scalar_ty w)) = strok w v).
    { intros []; try reflexivity. cbn [wt strok]. apply forallb_numok. }
    pose proof (des_ty_safe no_types c data ub false Hsm no_types_wf Hd rec
      ltac:(discriminate) (TVec s contig (scalar_ty w)) Hwf
      ltac:(unfold scalar_ty, flagged; cbn; now rewrite !orb_true_r)
      ltac:(unfold scalar_ty; cbn; auto)) as S.
    specialize (S prior pos Hp). rewrite E in S. specialize (S Hpr).
    destruct (des_ty _ _ _ _ _ _ _) as [[r v] p]. cbn [safe_out] in S. rewrite E in S. exact S.
  Qed.

  Lemma array_scalar_safe c data n w rec :
    small data -> (0 < n)%nat -> wfw w = true -> wfsz (Some (dsize c)) = true ->
    forall prior pos, (pos <= length data)%nat -> pwt P prior (PArr n w) = true ->
    psafe (PArr n w) (length data) pos (des_ty no_types c data rec (TArray n (scalar_ty w)) prior pos).
  Proof.
    intros Hsm Hn Hw Hd prior pos Hp Hpr.
    assert (Hwf : wf no_types (TArray n (scalar_ty w)) = true).
    { cbn [wf]. rewrite scalar_ty_wf by exact Hw. rewrite andb_true_r. now apply Nat.ltb_lt. }
    assert (E : forall v, wt no_types v (TArray n (scalar_ty w)) = pwt P v (PArr n w)).
    { intros []; try reflexivity. cbn [wt pwt]. f_equal. apply forallb_numok. }
    pose proof (des_ty_safe no_types c data ub false Hsm no_types_wf Hd rec
      ltac:(discriminate) (TArray n (scalar_ty w)) Hwf
      ltac:(unfold scalar_ty, flagged; cbn; now rewrite !orb_true_r)
      ltac:(unfold scalar_ty; cbn; auto)) as S.
    specialize (S prior pos Hp). rewrite E in S. specialize (S Hpr).
    destruct (des_ty _ _ _ _ _ _ _) as [[r v] p]. cbn [safe_out] in S. rewrite E in S. exact S.
  Qed.

  Lemma des_scalars_safe c data ck w resize fetch wt prior pos :
    small data -> wfw w = true -> wfsz (Some (dsize c)) = true ->
    ck_laws (numok w) ck -> (resize = true -> exists ct rv, ck = CSeq ct rv) ->
    nprog fetch (length data) (pow256 w) -> (pos <= length data)%nat ->
    pwt P prior (PFixes ck w) = true ->
    psafe (PFixes ck w) (length data) pos (des_scalars c data ck w resize fetch wt prior pos).
  Proof.
    intros Hsm Hw Hds Hck Hrs Hf Hp Hpr.
    destruct prior as [|l| | | | | |]; try discriminate. cbn [as_seq].
    unfold des_scalars. cbn [as_seq]. destruct (negb (wt =? 2)).
    - specialize (Hf pos Hp). destruct (fetch pos) as [[r x] p].
      destruct r; try (exfalso; exact Hf); [|subst p; cbn [psafe]; split; [lia|]; auto].
      destruct Hf as [F1 F2]. cbn [psafe]. split; [lia|]. split; [|auto].
      cbn [pwt]. apply cinsert_ok; auto. cbn. lia.
    - pose proof (varint_prog 8 false 0 data eq_refl pos Hp) as HV.
      destruct (des_varint 8 false 0 data pos) as [[r len] p].
      destruct r; try (exfalso; exact HV); [|subst p; cbn [psafe]; split; [lia|]; auto].
      destruct HV as [HV _].
      destruct resize.
      + destruct (Hrs eq_refl) as (ct & rv & ->).
        destruct (match alim c with Some lim => lim <? len | None => false end);
          [cbn [psafe]; split; [lia|]; auto|].
        destruct ((_ <=? _) || _); [|cbn [psafe]; split; [lia|]; auto].
        cbn [unsized_ty].
        assert (HS : strok w (VSeq (vresize (VN 0) (N.to_nat (len / N.of_nat w)) l)) = true).
        { cbn [strok]. rewrite forallb_forall. apply Forall_forall. apply vresize_forall.
          - cbn. pose proof (pow256_pos w). lia.
          - cbn [pwt] in Hpr. apply andb_true_iff in Hpr as [Hpr _].
            now apply Forall_forall, forallb_forall. }
        pose proof (vec_scalar_safe c data (Some SzNone) ct w (fun _ p pos => (RUB, p, pos))
          Hsm Hw Hds eq_refl _ p ltac:(lia) HS) as S.
        destruct (des_ty _ _ _ _ _ _ _) as [[r v] p']. destruct S as (S1 & S2 & S3).
        destruct v; try discriminate. cbn [psafe]. split; [lia|]. split; [|exact S3].
        cbn [pwt ckok]. rewrite andb_true_r. exact S2.
      + destruct (reserve_ok c ck len l); [|cbn [psafe]; split; [lia|]; auto].
        pose proof (packed_loop_safe fetch (cinsert ck) (wadd len (N.of_nat p)) (length data)
          (fun l => forallb (numok w) l && ckok ck l) w Hf
          (fun l x => cinsert_ok (numok w) ck l x Hck)
          (S (length data)) l p ltac:(lia) ltac:(lia) Hpr) as S.
        destruct (packed_loop _ _ _ _ _ p) as [[r v] p']. destruct v; try contradiction.
        destruct S as (S1 & S2 & S3). cbn [psafe]. split; [lia|]. auto.
  Qed.

  (** A nested message read with a given reader of its fields. *)
  Lemma des_nested_safe data fields ts size prior pos :
    (pos <= length data)%nat ->
    forall2b (fun x t => pwt P x t) prior ts = true ->
    (forall sub vals, (length sub <= length data - pos)%nat ->
       forall2b (fun x t => pwt P x t) vals ts = true -> fsafe ts (length sub) (fields sub vals)) ->
    match des_nested data fields size (VSeq prior) pos with
    | (r, VSeq vs, p) =>
        (pos <= p <= length data)%nat /\ forall2b (fun x t => pwt P x t) vs ts = true
        /\ allowed ub false r
    | _ => False
    end.
  Proof.
    intros Hp Hw Hf. unfold des_nested, rest_of.
    replace (pos <=? length data)%nat with true by lia.
    set (n := match size with Some _ => _ | None => _ end).
    cbn [as_seq].
    assert (Hl : (length (firstn n (skipn pos data)) <= length data - pos)%nat)
      by (rewrite firstn_length, skipn_length; lia).
    specialize (Hf (firstn n (skipn pos data)) prior Hl Hw).
    destruct (fields _ prior) as [[r vs] p]. destruct Hf as (F1 & F2 & F3).
    destruct r; (split; [lia|]; auto).
  Qed.

  Lemma des_size_le c data s pos :
    wfsz (Some s) = true -> small data -> (pos <= length data)%nat ->
    match des_size c data s pos with
    | (ROk, n, p) => (pos <= p <= length data)%nat
    | (RErr _, _, p) => p = pos
    | _ => False
    end.
  Proof.
    intros Hs Hsm Hp. pose proof (des_size_safe c s Hs data pos Hsm Hp) as H.
    destruct (des_size c data s pos) as [[r n] p]. destruct r; try exact H. apply H.
  Qed.

  Lemma des_protocol_safe c s data fields ts prior pos :
    wfsz (Some s) = true -> small data ->
    (pos <= length data)%nat ->
    forall2b (fun x t => pwt P x t) prior ts = true ->
    (forall sub vals, (length sub <= length data - pos)%nat ->
       forall2b (fun x t => pwt P x t) vals ts = true -> fsafe ts (length sub) (fields sub vals)) ->
    match des_protocol c data s (des_nested data fields) (VSeq prior) pos with
    | (r, VSeq vs, p) =>
        (pos <= p <= length data)%nat /\ forall2b (fun x t => pwt P x t) vs ts = true
        /\ allowed ub false r
    | _ => False
    end.
  Proof.
    intros Hs Hsm Hp Hw Hf.
    assert (HN : forall size p, (pos <= p <= length data)%nat ->
      match des_nested data fields size (VSeq prior) p with
      | (r, VSeq vs, p') =>
          (pos <= p' <= length data)%nat /\ forall2b (fun x t => pwt P x t) vs ts = true
          /\ allowed ub false r
      | _ => False
      end).
    { intros size p Hpp.
      pose proof (des_nested_safe data fields ts size prior p ltac:(lia) Hw) as S.
      assert (S' := S ltac:(intros; apply Hf; [lia|assumption])). clear S.
      destruct (des_nested _ _ _ _ _) as [[r v] p']. destruct v; try contradiction.
      destruct S' as (S1 & S2 & S3). split; [lia|]. auto. }
    unfold des_protocol.
    pose proof (des_size_le c data s pos Hs Hsm Hp) as HS.
    destruct s as [|w|w]; [apply HN; lia| |];
      (destruct (des_size c data _ pos) as [[r n] p];
       destruct r; try contradiction; [now apply HN|subst p; split; [lia|]; auto]).
  Qed.

  Variable c : cfg.
  Hypothesis Hds : wfsz (Some (dsize c)) = true.

  Section Field.
    Variables (rec : nat -> list byte -> list val -> res * list val * nat) (L : nat).
    Hypothesis Hrec : forall k sub vals, (length sub < L)%nat -> small sub ->
      pwt P (VSeq vals) (PMsg k) = true ->
      fsafe (map snd (m_fields (P k))) (length sub) (rec k sub vals).

    Lemma des_field_safe t :
      wfp t = true -> ub || no_bool t = true -> pcmp_ok P t ->
      forall data, (length data <= L)%nat -> small data ->
      forall wt prior pos, (0 < pos <= length data)%nat -> pwt P prior t = true ->
      psafe t (length data) pos (des_field P c rec t data wt prior pos).
    Proof.
      induction t as [w| | |w sg zz| |k|ck w|ck w sg zz|ck contig w|ck k|ak kt IHk vt IHv|m w];
        cbn [wfp no_bool pcmp_ok]; intros Hwf Hub Hc data HL Hsm wt prior pos Hp Hpr;
        destruct prior as [n|l| | | | | |]; try discriminate; cbn [des_field vnum].
      - pose proof (scalar_prog c w n data ltac:(lia) Hsm pos ltac:(lia)) as S.
        pose proof (des_scalar_eq c data w n pos Hsm ltac:(lia)) as E.
        destruct (des_scalar c data w n pos) as [[r x] p]. cbn [nres psafe].
        destruct r; try contradiction.
        + destruct S as [S1 S2]. split; [lia|]. cbn [pwt]. split; [lia|auto].
        + destruct (_ <=? _)%nat; inversion E; subst. split; [lia|]. auto.
      - pose proof (scalar_prog c 1 0 data ltac:(lia) Hsm pos ltac:(lia)) as S.
        destruct (des_scalar c data 1 0 pos) as [[r x] p].
        destruct r; try contradiction.
        + destruct S as [S1 S2]. destruct (x <? 2) eqn:E; cbn [psafe]; split; try lia; split;
            cbn [pwt]; auto.
          split; [|discriminate]. intros _. rewrite orb_false_r in Hub. exact Hub.
        + subst p. cbn [psafe]. split; [lia|]. auto.
      - pose proof (varint_prog 1 false n data eq_refl pos ltac:(lia)) as S.
        pose proof (des_varint_eq 1 false n data pos eq_refl ltac:(lia)) as E.
        destruct (des_varint 1 false n data pos) as [[r x] p]. cbn [nres psafe].
        destruct r; try contradiction.
        + destruct S as [S1 S2]. split; [lia|]. cbn [pwt].
          change (pow256 1) with 256 in S2. split; [lia|auto].
        + destruct (leb_value _) as [[??]|]; inversion E; subst. split; [lia|]. auto.
      - pose proof (varint_prog w zz n data Hwf pos ltac:(lia)) as S.
        pose proof (des_varint_eq w zz n data pos Hwf ltac:(lia)) as E.
        destruct (des_varint w zz n data pos) as [[r x] p]. cbn [nres psafe].
        destruct r; try contradiction.
        + destruct S as [S1 S2]. split; [lia|]. cbn [pwt]. split; [lia|auto].
        + destruct (leb_value _) as [[??]|]; inversion E; subst. split; [lia|]. auto.
      - cbn [psafe]. split; [lia|]. auto.
      - cbn [pwt] in Hpr. rewrite forall2b_snd in Hpr.
        pose proof (des_protocol_safe c (dsize c) data (rec k) (map snd (m_fields (P k))) l pos
          Hds Hsm ltac:(lia) Hpr) as S.
        assert (S' := S ltac:(intros sub vals Hs Hv; apply Hrec;
          [lia|unfold small in *; lia|cbn [pwt]; now rewrite forall2b_snd])). clear S.
        destruct (des_protocol _ _ _ _ _ _) as [[r v] p]. destruct v; try contradiction.
        destruct S' as (S1 & S2 & S3). cbn [psafe]. split; [lia|]. split; [|exact S3].
        cbn [pwt]. now rewrite forall2b_snd.
      - apply des_scalars_safe; auto; try lia.
        + destruct ck; [eauto|discriminate].
        + apply scalar_prog; [pose proof (wfw_pos _ Hwf); lia|exact Hsm].
      - pose proof (des_scalars_safe c data ck w false (des_varint w zz 0 data) wt (VSeq l) pos
          Hsm Hwf Hds Hc ltac:(discriminate) (varint_prog w zz 0 data Hwf) ltac:(lia) Hpr) as S.
        destruct (des_scalars _ _ _ _ _ _ _ _ _) as [[r v] p]. cbn [psafe] in *.
        destruct S as (S1 & S2 & S3). split; [exact S1|]. split; [|exact S3]. now destruct v.
      - pose proof (vec_scalar_safe c data None contig w (fun _ p pos => (RUB, p, pos))
          Hsm Hwf Hds eq_refl (VSeq []) pos ltac:(lia) eq_refl) as S.
        destruct (des_ty _ _ _ _ _ _ _) as [[r v] p]. destruct S as (S1 & S2 & S3).
        unfold add_object. destruct r; cbn [psafe as_seq]; (split; [lia|]); auto.
        split; [|exact S3]. cbn [pwt]. apply (cinsert_ok (strok w)); auto.
      - assert (Hd : pwt P (VSeq (m_dflt (P k))) (PMsg k) = true)
          by apply (pwt_pdflt P (PMsg k) HP).
        cbn [pwt] in Hd. rewrite forall2b_snd in Hd.
        pose proof (des_protocol_safe c (dsize c) data (rec k) (map snd (m_fields (P k)))
          (m_dflt (P k)) pos Hds Hsm ltac:(lia) Hd) as S.
        assert (S' := S ltac:(intros sub vals Hs Hv; apply Hrec;
          [lia|unfold small in *; lia|cbn [pwt]; now rewrite forall2b_snd])). clear S.
        destruct (des_protocol _ _ _ _ _ _) as [[r v] p]. destruct v as [|vs| | | | | |]; try contradiction.
        destruct S' as (S1 & S2 & S3).
        unfold add_object. destruct r; cbn [psafe as_seq]; (split; [lia|]); auto.
        split; [|exact S3]. rewrite pwt_msgs in *. apply cinsert_ok; auto.
        cbn [pwt]. now rewrite forall2b_snd.
      - apply andb_true_iff in Hwf as [Hwk Hwv]. destruct Hc as (Hc & Hck & Hcv).
        assert (Hubk : ub || no_bool kt = true /\ ub || no_bool vt = true)
          by (destruct ub, (no_bool kt), (no_bool vt); auto).
        destruct Hubk as [Hubk Hubv].
        assert (Hd : forall2b (fun x t => pwt P x t) [pdflt P kt; pdflt P vt] [kt; vt] = true)
          by (cbn [forall2b]; now rewrite !pwt_pdflt).
        pose proof (des_protocol_safe c (dsize c) data
          (fun sub vals =>
             field_loop sub [1; 2]
               (fun i => match i with O => des_field P c rec kt sub | S _ => des_field P c rec vt sub end)
               (S (length sub)) (clear_members [kt; vt] vals) 0)
          [kt; vt] _ pos Hds Hsm ltac:(lia) Hd) as S.
        assert (S' := S ltac:(
          intros sub vals Hs Hv; apply field_loop_safe;
          [ intros [|[|[|i]]] n; cbn; congruence
          | intros [|[|[|i]]] t wt' prior pos' Ht Hw' Hp'; cbn in Ht; try discriminate;
            inversion Ht; subst t; [apply IHk|apply IHv]; auto; try lia;
            unfold small in *; lia
          | lia | lia | now apply clear_members_wt ])). clear S.
        destruct (des_protocol _ _ _ _ _ _) as [[r v] p]. destruct v as [|vs| | | | | |]; try contradiction.
        destruct S' as (S1 & S2 & S3).
        unfold add_object. destruct r; cbn [psafe as_seq]; (split; [lia|]); auto.
        split; [|exact S3]. cbn [pwt]. apply (assoc_insert_ok (entry_ok P kt vt)); auto.
        destruct vs as [|a [|b [|? ?]]]; cbn [forall2b] in S2; try discriminate.
        + rewrite andb_false_r in S2. discriminate.
        + cbn. now rewrite andb_true_r in S2.
        + rewrite !andb_false_r in S2. discriminate.
      - apply andb_true_iff in Hwf as [Hm Hw]. apply Nat.ltb_lt in Hm.
        apply array_scalar_safe; auto; lia.
    Qed.
  End Field.

  Hypothesis Hub : forall k, forallb (fun fd => ub || no_bool (snd fd)) (m_fields (P k)) = true.
  Hypothesis Hcmp : pcmp_env P.

  Lemma des_fields_safe fuel k data vals :
    small data -> (length data < fuel)%nat -> pwt P (VSeq vals) (PMsg k) = true ->
    fsafe (map snd (m_fields (P k))) (length data) (des_fields P c fuel k data vals).
  Proof.
    revert k data vals. induction fuel as [|f IH]; intros k data vals Hsm Hlt Hw; [lia|].
    cbn [des_fields]. cbn [pwt] in Hw. rewrite forall2b_snd in Hw.
    apply field_loop_safe; [| |lia|lia|now apply clear_members_wt].
    - intros i n Hn. apply numbers_from_nth in Hn as (fd & Hn & _).
      erewrite map_nth_error by eassumption. discriminate.
    - intros i t wt prior pos Ht Hpr Hp. destruct (nth_error (m_fields (P k)) i) as [fd|] eqn:E.
      2:{ apply nth_error_None in E. assert (nth_error (map snd (m_fields (P k))) i <> None) as D
            by congruence. apply nth_error_Some in D. rewrite map_length in D.
          exfalso. exact (Nat.lt_irrefl _ (Nat.lt_le_trans _ _ _ D E)). }
      rewrite (map_nth_error snd _ _ E) in Ht.
      injection Ht as <-. pose proof (nth_error_In _ _ E) as Hin.
      apply (des_field_safe (des_fields P c f) (length data)); auto.
      + intros k' sub vals' Hl Hs Hv. apply IH; auto. lia.
      + specialize (HP k). unfold wf_pmsg in HP. rewrite !andb_true_iff in HP.
        destruct HP as [[[[[H _] _] _] _] _]. rewrite forallb_forall in H. now apply H.
      + specialize (Hub k). rewrite forallb_forall in Hub. now apply Hub.
      + specialize (Hcmp k). rewrite Forall_forall in Hcmp. now apply Hcmp.
  Qed.
End PbSafe.

Theorem des_pb_item_safe P c ub data fuel s k prior pos :
  wf_penv P -> pcmp_env P ->
  (forall k, forallb (fun fd => ub || no_bool (snd fd)) (m_fields (P k)) = true) ->
  wfsz (Some s) = true -> small data -> (pos <= length data)%nat ->
  (length data - pos < fuel)%nat -> pwt P prior (PMsg k) = true ->
  let '(r, v, p) := des_pb_item P c data fuel s k prior pos in
  (pos <= p <= length data)%nat /\ pwt P v (PMsg k) = true /\ (r = RUB -> ub = true) /\ r <> RStack.
Proof.
  intros HP Hc Hub Hs Hsm Hp Hfu Hw.
  destruct prior as [|l| | | | | |]; try discriminate. cbn [pwt] in Hw. rewrite forall2b_snd in Hw.
  pose proof (des_protocol_safe P ub c s data (des_fields P (pb_icfg c) fuel k) _ l pos
    Hs Hsm Hp Hw) as S.
  assert (S' := S ltac:(intros sub vals Hl Hv; apply des_fields_safe; auto;
    [unfold small in *; lia|lia|cbn [pwt]; now rewrite forall2b_snd])).
  unfold des_pb_item. destruct (des_protocol _ _ _ _ _ _) as [[r v] p].
  destruct v; try contradiction. destruct S' as (S1 & S2 & S3 & S4).
  split; [lia|]. split; [cbn [pwt]; now rewrite forall2b_snd|]. split; [exact S3|].
  intro E. now apply S4 in E.
Qed.
