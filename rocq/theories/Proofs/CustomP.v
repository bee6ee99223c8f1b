(** Classes with a serialize function: output. *)

From Coq Require Import List NArith ZArith Lia Bool Arith.
From Coq Require Import ZifyBool ZifyNat ZifyN.
From Verif Require Import Base.Bytes Model.Types Model.Machine Model.Varint Model.Out Model.In Model.Pb
  Model.Custom Spec.Leb128 Spec.Wire Spec.CustomWire Proofs.VarintP Proofs.OutP.
Import ListNotations.
Local Open Scope N_scope.

Ltac Zify.zify_post_hook ::= Z.div_mod_to_equations.

Definition xoutcome (c : cfg) (st : ost) (p : xout) (r : res) (st' : ost) : Prop :=
  exists e1 e2 k,
    fst p = e1 ++ e2 /\
    st' = mkO (overwrite (obuf st ++ zeros k) (opos st) e1) (opos st + length e1) /\
    (opos st + length e1 <= length (obuf st) + k)%nat /\
    (k = O \/ growable c = true
              /\ within_limit c (N.of_nat (length (obuf st) + k)) = true
              /\ can_alloc c (N.of_nat (length (obuf st) + k)) = true) /\
    match r with
    | ROk => e2 = [] /\ snd p = None
    | RErr er =>
        (e2 = [] /\ snd p = Some (Failed er)) \/
        (er = result_out_of_range /\ growable c = false
         /\ (length (obuf st) - opos st < length (fst p))%nat) \/
        (er = no_buffer_space /\ growable c = true)
    | RThrow => (e2 = [] /\ snd p = Some Threw) \/ growable c = true
    | _ => False
    end.

Definition xemits (c : cfg) (b : bool) (a : act) (p : xout) : Prop :=
  wf_out c -> N.of_nat (length (fst p)) < 2 ^ 63 ->
  forall st, ost_ok st -> (b = true -> clean st) ->
  let '(r, st') := a st in
  xoutcome c st p r st' /\
  (forall E, rich c E -> (opos st + length (fst p) <= E)%nat -> r = xresult p).

Lemma emits_lift c b a p : emits c b a p -> xemits c b a (lift p).
Proof.
  intros H Hwf Hl st Hok Hcl. specialize (H Hwf Hl st Hok Hcl). destruct (a st) as [r st'].
  destruct H as [(e1 & e2 & k & F1 & F2 & F3 & F4 & F5) HE]. split.
  - exists e1, e2, k. unfold lift. cbn [fst snd]. repeat split; auto.
    destruct r as [|er| | |]; auto.
    + destruct F5 as [-> ->]. auto.
    + destruct er; try contradiction.
      * right. left. tauto.
      * right. right. tauto.
      * left. destruct F5 as [-> ->]. auto.
  - intros E H1 H2. rewrite (HE E H1 H2). unfold final, xresult, lift. cbn [snd]. now destruct (snd p).
Qed.

Lemma xemits_ret c b : xemits c b ret xnil.
Proof. exact (emits_lift c b ret pnil (emits_ret c b)). Qed.

Lemma xemits_fail c b e : xemits c b (fail (RErr e)) ([], Some (Failed e)).
Proof.
  intros Hwf Hl st Hok Hcl. cbn. split; [|reflexivity].
  exists [], [], O. split; [reflexivity|]. split; [apply st_eta|]. split; [destruct Hok; cbn; lia|].
  split; [now left|]. left. auto.
Qed.

Lemma xoutcome_ok_state c st p r st' : ost_ok st -> xoutcome c st p r st' -> ost_ok st'.
Proof.
  intros [H1 H2] (e1 & e2 & k & _ & -> & H3 & H4 & _). split; cbn [obuf opos].
  - rewrite overwrite_length; rewrite app_length, zeros_length; lia.
  - rewrite overwrite_length by (rewrite app_length, zeros_length; lia).
    rewrite app_length, zeros_length.
    destruct H4 as [->|(_ & _ & Hc)]; [now rewrite Nat.add_0_r|].
    unfold can_alloc in Hc. apply andb_true_iff in Hc as [Hc _].
    now apply N.ltb_lt in Hc.
Qed.

Lemma xoutcome_clean c st p r st' : ost_ok st -> clean st -> xoutcome c st p r st' -> clean st'.
Proof.
  intros Hok Hc (e1 & e2 & k & F1 & F2 & F3 & F4 & _).
  apply (outcome_clean c st (e1, true) ROk st' Hok Hc).
  exists e1, [], k. cbn [fst snd]. rewrite app_nil_r. repeat split; auto.
Qed.

Lemma xemits_seq c b a1 a2 p1 p2 :
  xemits c b a1 p1 -> xemits c b a2 p2 -> xemits c b (a1 ;; a2) (xseq p1 p2).
Proof.
  intros H1 H2 Hwf Hl st Hok Hcl.
  assert (Hl1 : N.of_nat (length (fst p1)) < 2 ^ 63).
  { unfold xseq in Hl. destruct (snd p1); [exact Hl|]. cbn [fst] in Hl.
    rewrite app_length in Hl. lia. }
  specialize (H1 Hwf Hl1 st Hok Hcl).
  unfold seq. destruct (a1 st) as [r1 st1]. destruct H1 as [O1 R1].
  assert (Hok1 : ost_ok st1) by (eapply xoutcome_ok_state; eauto).
  assert (Hcl1 : b = true -> clean st1).
  { intro Hb. eapply xoutcome_clean; [exact Hok | exact (Hcl Hb) | exact O1]. }
  assert (Hfail : r1 <> ROk ->
    xoutcome c st (xseq p1 p2) r1 st1 /\
    (forall E, rich c E -> (opos st + length (fst (xseq p1 p2)) <= E)%nat -> r1 = xresult (xseq p1 p2))).
  { intro Hr. unfold xseq. destruct (snd p1) as [er1|] eqn:Es.
    - split; [exact O1|]. intros E HE HE2. now apply (R1 E).
    - split.
      + destruct O1 as (e1 & e2 & k & F1 & F2 & F3 & F4 & F5).
        exists e1, (e2 ++ fst p2), k. cbn [fst snd]. rewrite F1, app_assoc. repeat split; auto.
        rewrite Es, F1 in F5. rewrite app_length.
        destruct r1 as [|er| | |]; try tauto.
        * destruct F5 as [[_ F5]|[(-> & F5 & F6)|F5]]; [discriminate| |now right; right].
          right. left. repeat split; auto. lia.
        * destruct F5 as [[_ F5]|F5]; [discriminate|now right].
      + intros E HE HE2. exfalso. apply Hr.
        unfold xresult in R1. rewrite Es in R1. apply (R1 E HE).
        cbn [fst] in HE2. rewrite app_length in HE2. lia. }
  destruct r1 as [|er| | |]; try (apply Hfail; discriminate). clear Hfail.
  assert (Es : snd p1 = None).
  { destruct O1 as (e1 & e2 & k & F1 & F2 & F3 & F4 & F5). tauto. }
  unfold xseq in *. rewrite Es in *. cbn [fst snd] in Hl. rewrite app_length in Hl.
  specialize (H2 Hwf ltac:(lia) st1 Hok1 Hcl1).
  destruct (a2 st1) as [r2 st2]. destruct H2 as [O2 R2].
  destruct O1 as (e1 & e2 & k & F1 & F2 & F3 & F4 & F5 & _). subst e2.
  rewrite app_nil_r in F1.
  destruct O2 as (g1 & g2 & k2 & G1 & G2 & G3 & G4 & G5).
  subst st1. cbn [obuf opos] in *.
  assert (Hlen1 : length (overwrite (obuf st ++ zeros k) (opos st) e1) = (length (obuf st) + k)%nat)
    by (rewrite overwrite_length; rewrite app_length, zeros_length; lia).
  rewrite Hlen1 in *.
  split.
  - exists (e1 ++ g1), g2, (k + k2)%nat. cbn [fst snd].
    rewrite F1, G1, <- app_assoc. repeat split; auto.
    + rewrite G2. f_equal.
      * rewrite <- overwrite_app_r by (rewrite app_length, zeros_length; lia).
        rewrite <- app_assoc, <- zeros_app.
        rewrite overwrite_app by (rewrite app_length, zeros_length; lia).
        reflexivity.
      * rewrite app_length. lia.
    + rewrite app_length. lia.
    + destruct G4 as [-> | (Hg & Hw & Hc)].
      * rewrite Nat.add_0_r. destruct F4 as [->|F4]; [left; reflexivity | right; exact F4].
      * right. rewrite Nat.add_assoc. auto.
    + destruct r2 as [|er| | |]; try tauto.
      destruct G5 as [G5|[(-> & Hg & G5)|G5]]; [now left| |now right; right].
      right. left. split; [reflexivity|]. split; [exact Hg|].
      destruct F4 as [->|(F4 & _)]; [|congruence].
      rewrite G1 in G5. rewrite !app_length in *. lia.
  - intros E HE HE2. cbn [fst] in HE2. rewrite F1, app_length in HE2.
    unfold xresult in *. cbn [snd]. apply (R2 E HE). lia.
Qed.

Lemma xemits_throw c b : xemits c b (fail RThrow) ([], Some Threw).
Proof.
  intros Hwf Hl st Hok Hcl. cbn. split; [|reflexivity].
  exists [], [], O. split; [reflexivity|]. split; [apply st_eta|]. split; [destruct Hok; cbn; lia|].
  split; [now left|]. left. auto.
Qed.

(** ** Every value of every type *)

Lemma xemits_many (f : val -> ty -> act) (g : val -> ty -> xout) c b (I : val -> ty -> Prop) l ms :
  Forall (fun x => forall t, I x t -> xemits c b (f x t) (g x t)) l ->
  length l = length ms ->
  (forall x m, In (x, m) (combine l ms) -> I x m) ->
  xemits c b (ser_many f l ms) (xenc_many g l ms).
Proof.
  intro H. revert ms; induction H as [|x l Hx _ IH]; intros ms Hlen Hin.
  - destruct ms; [apply xemits_ret | discriminate].
  - destruct ms as [|m ms]; [discriminate|]. cbn [ser_many xenc_many].
    apply xemits_seq.
    + apply Hx, Hin. left; reflexivity.
    + apply IH; [now injection Hlen|]. intros y n Hy. apply Hin. right; exact Hy.
Qed.

Lemma xemits_all (f : val -> ty -> act) (g : val -> ty -> xout) c b l t :
  Forall (fun x => xemits c b (f x t) (g x t)) l ->
  xemits c b (ser_all f l t) (xenc_all g l t).
Proof.
  induction 1 as [|x l Hx _ IH]; [apply xemits_ret|].
  cbn [ser_all xenc_all]. now apply xemits_seq.
Qed.

Lemma lift_pseq p q : lift (pseq p q) = xseq (lift p) (lift q).
Proof. unfold lift, pseq, xseq. destruct p as [e []], q as [e' []]; reflexivity. Qed.

Lemma xenc_many_lift (f : val -> ty -> pout) g l ms :
  (forall x m, In (x, m) (combine l ms) -> g x m = lift (f x m)) ->
  xenc_many g l ms = lift (enc_many f l ms).
Proof.
  revert ms; induction l as [|x l IH]; intros [|m ms] H; try reflexivity.
  cbn [xenc_many enc_many]. rewrite lift_pseq, (H x m), IH; [reflexivity| |now left].
  intros. apply H. now right.
Qed.

Lemma xenc_all_lift (f : val -> ty -> pout) g l t :
  (forall x, In x l -> g x t = lift (f x t)) -> xenc_all g l t = lift (enc_all f l t).
Proof.
  induction l as [|x l IH]; intro H; [reflexivity|]. cbn [xenc_all enc_all].
  rewrite lift_pseq, (H x), IH; [reflexivity| |now left]. intros. apply H. now right.
Qed.

(** Types without named classes have the ordinary encoding. *)
Definition nrec (t : ty) : bool := match t with TRec _ => false | _ => true end.

Lemma xenc_norec G F o v : forall t, wt G v t = true -> tall nrec t = true -> xenc G F o v t = lift (enc G o v t).
Proof.
  induction v as [n|l IH| |v IH|i v IH| |l|l] using val_ind'; intros t Hw Ht;
    destruct t as [w isb| |w sg zz| |si ms|k|n' t'|ts|s cg t'|s k t'|dc t'|t'|t'|ik meta alts|n'|k|s t'];
    cbn [wt] in Hw; try discriminate; try reflexivity; cbn [xenc enc tall nrec andb] in *;
    try discriminate.
  - rewrite Forall_forall in IH. apply xenc_many_lift. intros x m Hin. apply IH.
    + eapply in_combine_l; eauto.
    + eapply (forall2b_in (fun x m => wt G x m)); eauto.
    + eapply in_combine_forallb; eauto.
  - rewrite Forall_forall in IH. apply andb_true_iff in Hw as [_ Hw]. rewrite forallb_forall in Hw.
    apply xenc_all_lift. auto.
  - rewrite Forall_forall in IH. apply xenc_many_lift. intros x m Hin. apply IH.
    + eapply in_combine_l; eauto.
    + eapply (forall2b_in (fun x m => wt G x m)); eauto.
    + eapply in_combine_forallb; eauto.
  - rewrite Forall_forall in IH. rewrite forallb_forall in Hw. rewrite lift_pseq. f_equal. apply xenc_all_lift. auto.
  - rewrite Forall_forall in IH. apply andb_true_iff in Hw as [Hw _]. rewrite forallb_forall in Hw.
    rewrite lift_pseq. f_equal. apply xenc_all_lift. auto.
  - rewrite Forall_forall in IH. rewrite forallb_forall in Hw. rewrite lift_pseq. f_equal. apply xenc_all_lift. auto.
  - rewrite lift_pseq, IH; auto.
  - rewrite lift_pseq, IH; auto.
  - auto.
  - destruct (nth_error alts i) as [t'|] eqn:Ea; [|discriminate].
    destruct (nth_error meta i) as [[id dc]|].
    + rewrite lift_pseq, IH; auto. rewrite forallb_forall in Ht. apply Ht. eapply nth_error_In; eauto.
    + reflexivity.
Qed.

Lemma bs_nrec t : bs t = true -> tall nrec t = true.
Proof.
  induction t as [ | | | |si ms IH| | | | | | | | | | | | ] using ty_ind'; cbn [bs tall nrec andb]; try discriminate; auto.
  rewrite !andb_true_iff. intros [[[[_ H] _] _] _].
  rewrite forallb_forall in *. rewrite Forall_forall in IH. auto.
Qed.

Lemma eibs_nrec t : eibs t = true -> tall nrec t = true.
Proof. induction t using ty_ind'; cbn [eibs tall nrec andb]; try discriminate; auto. Qed.

Lemma bytes_nrec c t : as_bytes c t = true -> tall nrec t = true.
Proof.
  unfold as_bytes. rewrite orb_true_iff, andb_true_iff. intros [H|[_ H]]; [now apply eibs_nrec|now apply bs_nrec].
Qed.

Definition item_ok (b : bool) (t : ty) : Prop := plain t = true /\ (b = false -> tall not_bitset t = true).

Lemma path_emits G c b (ms : list (ty -> act)) (es : list (ty -> xout)) ts self :
  szok c = true -> wf_env G -> tall_env elem_ok G -> (b = false -> tall_env not_bitset G) ->
  object G self ts ->
  (forall i a e t t0, nth_error ms i = Some a -> nth_error es i = Some e -> nth_error ts i = Some t0 ->
     (forall x, wt G x t = wt G x t0) -> wf G t = true -> item_ok b t -> xemits c b (a t) (e t)) ->
  length ms = length ts -> length es = length ts ->
  forall p, sound G (item_ok b) ts p ->
    xemits c b (run_out G c ms self p) (path G (fmt_of c) es self p).
Proof.
  intros Hsz HG Hpl Hnb Hob Hms Hl1 Hl2 p. induction p as [|e| |i t k IH|t f k IH|f k IH]; cbn [sound run_out path].
  - intros _. apply xemits_ret.
  - intros _. apply xemits_fail.
  - intros _. apply xemits_throw.
  - intros ((t0 & E0 & Hwt) & Hw & Q & Hk).
    assert (Hi : (i < length ts)%nat) by (apply nth_error_Some; congruence).
    destruct (nth_error ms i) as [a|] eqn:Ea; [|apply nth_error_None in Ea; lia].
    destruct (nth_error es i) as [e|] eqn:Ee; [|apply nth_error_None in Ee; lia].
    apply xemits_seq; eauto.
  - intros (Hw & Hn & [Q1 Q2] & Hf & Hk). apply xemits_seq; [|apply IH; auto].
    apply emits_lift. apply (ser_emits G c b); auto.
  - intros [_ Hk]. auto.
Qed.

Lemma nth_object G self ts i x t : object G self ts -> nth_error self i = Some x -> nth_error ts i = Some t -> wt G x t = true.
Proof.
  unfold object. revert ts i; induction self as [|y self IH]; intros [|t' ts] [|i] H Hx Ht; try discriminate;
    cbn [forall2b nth_error] in *; apply andb_true_iff in H as [H1 H2]; [congruence|eauto].
Qed.

Theorem cser_emits G F c b :
  szok c = true -> wf_env G -> tall_env elem_ok G -> (b = false -> tall_env not_bitset G) ->
  (forall k, sound G (item_ok b) (t_mems G k) (F k)) ->
  forall v t, wt G v t = true -> wf G t = true -> item_ok b t ->
    xemits c b (cser G F c v t) (xenc G F (fmt_of c) v t).
Proof.
  intros Hsz HwfG HplG HnbG HF.
  induction v as [n|l IH| |v IH|i v IH| |l|l] using val_ind';
    intros t Hwt Hwf [Hpl Hnb];
    destruct t as [w isb| |w sg zz| |si ms|k|n' t'|ts|s cg t'|s k t'|dc t'|t'|t'|ik meta alts|n'|k|s t'];
    cbn [wt] in Hwt; try discriminate; try (destruct k as [s|nv|]; discriminate);
    try (match goal with |- xemits _ _ (cser _ _ _ ?v ?t) _ =>
           change (cser G F c v t) with (ser G c v t);
           change (xenc G F (fmt_of c) v t) with (lift (enc G (fmt_of c) v t));
           apply emits_lift; apply (ser_emits G c b); auto end).
  - (* struct *)
    cbn [cser]. destruct (negb (s_expl si) && is_empty (TStruct si ms)) eqn:Eem.
    { apply andb_true_iff in Eem as [_ Eem]. destruct ms; [|discriminate].
      destruct l; [|discriminate]. apply xemits_ret. }
    destruct (as_bytes c (TStruct si ms)) eqn:Eab.
    { rewrite xenc_norec; auto.
      - rewrite (objrep_enc G c (VSeq l) (TStruct si ms)); auto.
        + apply (emits_lift c b _ (pdone _)), emits_put_bytes.
        + destruct ms; [|reflexivity].
          unfold as_bytes in Eab. cbn in Eab. rewrite !andb_false_r in Eab. discriminate.
      - apply bytes_nrec with (c := c). exact Eab. }
    cbn [xenc].
    apply (xemits_many _ _ c b (fun x t => wt G x t = true /\ wf G t = true /\ item_ok b t)).
    + eapply Forall_impl; [|exact IH]. cbn. intros ? ? ? (?&?&?); auto.
    + eapply forall2b_length; eauto.
    + cbn [wf] in Hwf. rewrite !andb_true_iff in Hwf. destruct Hwf as [[_ Hwf] _].
      unfold plain in Hpl. cbn [tall elem_ok andb] in Hpl. cbn [tall not_bitset andb] in Hnb.
      intros x m Hin; repeat split.
      * eapply (forall2b_in (fun x m => wt G x m)); eauto.
      * eapply in_combine_forallb; eauto.
      * eapply (in_combine_forallb (tall elem_ok)); eauto.
      * intro Hb; eapply (in_combine_forallb (tall not_bitset)); eauto.
  - (* named class *)
    cbn [cser xenc]. pose proof (forall2b_length _ _ _ Hwt) as HL.
    apply path_emits with (ts := t_mems G k); auto; [|now rewrite map_length..].
    intros i a e t t0 Ha He Ht Hxt Hw HQ.
    rewrite nth_error_map in Ha, He. destruct (nth_error l i) as [x|] eqn:Ex; [|discriminate].
    cbn in Ha, He. injection Ha as <-. injection He as <-.
    rewrite Forall_forall in IH. apply IH; auto; [now apply nth_error_In in Ex|].
    rewrite Hxt. eapply nth_object; eauto.
  - (* array *)
    cbn [cser].
    unfold plain in Hpl. cbn [tall elem_ok] in Hpl.
    apply andb_true_iff in Hpl as [He Hpl]. apply negb_true_iff in He.
    cbn [wf] in Hwf. apply andb_true_iff in Hwf as [Hn0 Hwf].
    pose proof Hwt as Hwt0. apply andb_true_iff in Hwt as [Hlen Hwt]. rewrite forallb_forall in Hwt.
    cbn [tall not_bitset andb] in Hnb.
    rewrite Forall_forall in IH.
    destruct (as_bytes c t') eqn:Eab.
    + cbn [xenc objrep]. rewrite (xenc_all_lift (enc G (fmt_of c))).
      * rewrite (enc_all_bytes G (fmt_of c) c); [apply emits_lift, emits_put_bytes|].
        rewrite Forall_forall. intros x Hin. apply objrep_enc; auto.
      * intros x Hin. apply xenc_norec; auto. eapply bytes_nrec; eauto.
    + cbn [xenc]. apply xemits_all. rewrite Forall_forall. intros x Hin. apply IH; auto. now split.
  - (* tuple *)
    cbn [cser xenc].
    apply (xemits_many _ _ c b (fun x t => wt G x t = true /\ wf G t = true /\ item_ok b t)).
    + eapply Forall_impl; [|exact IH]. cbn. intros ? ? ? (?&?&?); auto.
    + eapply forall2b_length; eauto.
    + cbn [wf] in Hwf.
      unfold plain in Hpl. cbn [tall elem_ok andb] in Hpl. cbn [tall not_bitset andb] in Hnb.
      intros x m Hin; repeat split.
      * eapply (forall2b_in (fun x m => wt G x m)); eauto.
      * eapply in_combine_forallb; eauto.
      * eapply (in_combine_forallb (tall elem_ok)); eauto.
      * intro Hb; eapply (in_combine_forallb (tall not_bitset)); eauto.
  - (* vector *)
    cbn [cser xenc].
    unfold plain in Hpl. cbn [tall elem_ok] in Hpl.
    apply andb_true_iff in Hpl as [He Hpl]. apply negb_true_iff in He.
    cbn [wf] in Hwf. apply andb_true_iff in Hwf as [Hs Hwf].
    rewrite forallb_forall in Hwt. cbn [tall not_bitset andb] in Hnb.
    rewrite Forall_forall in IH.
    apply xemits_seq; [apply (emits_lift c b _ (pdone _)); now apply emits_size|].
    destruct (as_bytes c t') eqn:Eab; [destruct cg|]; cbn [andb].
    + rewrite (xenc_all_lift (enc G (fmt_of c))).
      * rewrite (enc_all_bytes G (fmt_of c) c); [apply emits_lift, emits_put_bytes|].
        rewrite Forall_forall. intros x Hin. apply objrep_enc; auto.
      * intros x Hin. apply xenc_norec; auto. eapply bytes_nrec; eauto.
    + apply xemits_all. rewrite Forall_forall. intros x Hin. apply IH; auto. now split.
    + apply xemits_all. rewrite Forall_forall. intros x Hin. apply IH; auto. now split.
  - (* associative *)
    cbn [cser xenc].
    unfold plain in Hpl. cbn [tall elem_ok andb] in Hpl.
    cbn [wf] in Hwf. apply andb_true_iff in Hwf as [Hs Hwf].
    apply andb_true_iff in Hwt as [Hwt _].
    rewrite forallb_forall in Hwt. cbn [tall not_bitset andb] in Hnb.
    rewrite Forall_forall in IH.
    apply xemits_seq; [apply (emits_lift c b _ (pdone _)); now apply emits_size|].
    apply xemits_all. rewrite Forall_forall. intros x Hin. apply IH; auto. now split.
  - (* span *)
    cbn [cser xenc].
    unfold plain in Hpl. cbn [tall elem_ok] in Hpl.
    apply andb_true_iff in Hpl as [He Hpl]. apply negb_true_iff in He.
    cbn [wf] in Hwf. apply andb_true_iff in Hwf as [Hs Hwf].
    rewrite forallb_forall in Hwt. cbn [tall not_bitset andb] in Hnb.
    rewrite Forall_forall in IH.
    apply xemits_seq; [apply (emits_lift c b _ (pdone _)); now apply emits_size|].
    destruct (as_bytes c t') eqn:Eab.
    + rewrite (xenc_all_lift (enc G (fmt_of c))).
      * rewrite (enc_all_bytes G (fmt_of c) c); [apply emits_lift, emits_put_bytes|].
        rewrite Forall_forall. intros x Hin. apply objrep_enc; auto.
      * intros x Hin. apply xenc_norec; auto. eapply bytes_nrec; eauto.
    + apply xemits_all. rewrite Forall_forall. intros x Hin. apply IH; auto. now split.
  - (* optional *) cbn [cser xenc]. apply xemits_seq.
    + unfold ser_flag. rewrite scalar_bytes_wscalar, wscalar_1. apply (emits_lift c b _ (pdone _)), emits_put.
    + apply IH; auto. now split.
  - (* optional_ptr *) cbn [cser xenc]. apply xemits_seq.
    + unfold ser_flag. rewrite scalar_bytes_wscalar, wscalar_1. apply (emits_lift c b _ (pdone _)), emits_put.
    + apply IH; auto. now split.
  - (* pointer *) cbn [cser xenc]. apply IH; auto. now split.
  - (* variant *)
    cbn [cser xenc]. destruct (nth_error alts i) as [t'|] eqn:Ei; [|discriminate].
    cbn [wf] in Hwf. rewrite !andb_true_iff in Hwf.
    destruct Hwf as [[[[_ Hlen] _] Hids] Hwf]. apply Nat.eqb_eq in Hlen.
    assert (Hi : (i < length meta)%nat).
    { rewrite Hlen. apply nth_error_Some. congruence. }
    destruct (nth_error meta i) as [[id dc]|] eqn:Em;
      [|apply nth_error_None in Em; lia].
    pose proof (nth_error_In _ _ Ei) as Hin.
    unfold plain in Hpl. cbn [tall elem_ok andb] in Hpl. cbn [tall not_bitset andb] in Hnb.
    rewrite forallb_forall in Hwf, Hpl.
    apply xemits_seq.
    + apply (emits_lift c b _ (pdone _)). unfold ser_id, wire_id. destruct ik as [w|n].
      * rewrite scalar_bytes_wscalar. apply emits_put.
      * apply emits_put_bytes.
    + apply IH; auto. split; [now apply Hpl|]. intro Hb. specialize (Hnb Hb). rewrite forallb_forall in Hnb. auto.
Qed.
