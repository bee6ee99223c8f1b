(** Classes whose functions go through other classes: output. *)

From Coq Require Import List NArith ZArith Lia Bool Arith.
From Coq Require Import ZifyBool ZifyNat ZifyN.
From Verif Require Import Base.Bytes Model.Types Model.Machine Model.Varint Model.Out Model.In Model.Pb
  Model.Custom Model.Surrogate Spec.Leb128 Spec.Wire Spec.CustomWire Spec.SurrogateWire
  Proofs.VarintP Proofs.OutP Proofs.CustomP.
Import ListNotations.
Local Open Scope N_scope.

Ltac Zify.zify_post_hook ::= Z.div_mod_to_equations.

Definition yemits (c : cfg) (b : bool) (a : act) (p : yout) : Prop :=
  forall e, p = Some e -> xemits c b a e.

Lemma yemits_some c b a e : xemits c b a e -> yemits c b a (Some e).
Proof. intros H e' E. injection E as <-. exact H. Qed.

Lemma yemits_ret c b : yemits c b ret ynil.
Proof. apply yemits_some, xemits_ret. Qed.

Lemma yemits_lift c b a p : emits c b a p -> yemits c b a (Some (lift p)).
Proof. intro H. now apply yemits_some, emits_lift. Qed.

(** What has failed has failed, whatever would have come next. *)
Lemma xemits_stop c b a1 a2 e s : xemits c b a1 (e, Some s) -> xemits c b (a1 ;; a2) (e, Some s).
Proof.
  intros H Hwf Hl st Hok Hcl. specialize (H Hwf Hl st Hok Hcl).
  unfold seq. destruct (a1 st) as [r1 st1] eqn:E. destruct H as [O R].
  destruct r1 as [|er| | |]; try (split; [exact O|exact R]).
  destruct O as (e1 & e2 & k & F1 & F2 & F3 & F4 & F5 & F6). discriminate.
Qed.

Lemma yemits_seq c b a1 a2 p1 p2 :
  yemits c b a1 p1 -> yemits c b a2 p2 -> yemits c b (a1 ;; a2) (yseq p1 p2).
Proof.
  intros H1 H2 e E. unfold yseq in E. destruct p1 as [[e1 [s1|]]|]; [| |discriminate].
  - injection E as <-. apply xemits_stop, H1. reflexivity.
  - destruct p2 as [[e2 s2]|]; [|discriminate]. injection E as <-.
    exact (xemits_seq c b a1 a2 (e1, None) (e2, s2) (H1 _ eq_refl) (H2 _ eq_refl)).
Qed.

Lemma yemits_many (f : val -> ty -> act) (g : val -> ty -> yout) c b (I : val -> ty -> Prop) l ms :
  Forall (fun x => forall t, I x t -> yemits c b (f x t) (g x t)) l ->
  length l = length ms ->
  (forall x m, In (x, m) (combine l ms) -> I x m) ->
  yemits c b (ser_many f l ms) (yenc_many g l ms).
Proof.
  intro H. revert ms; induction H as [|x l Hx _ IH]; intros ms Hlen Hin.
  - destruct ms; [apply yemits_ret | discriminate].
  - destruct ms as [|m ms]; [discriminate|]. cbn [ser_many yenc_many].
    apply yemits_seq.
    + apply Hx, Hin. left; reflexivity.
    + apply IH; [now injection Hlen|]. intros y n Hy. apply Hin. right; exact Hy.
Qed.

Lemma yemits_all (f : val -> ty -> act) (g : val -> ty -> yout) c b l t :
  Forall (fun x => yemits c b (f x t) (g x t)) l ->
  yemits c b (ser_all f l t) (yenc_all g l t).
Proof.
  induction 1 as [|x l Hx _ IH]; [apply yemits_ret|].
  cbn [ser_all yenc_all]. now apply yemits_seq.
Qed.

Lemma lift_yseq p q : Some (lift (pseq p q)) = yseq (Some (lift p)) (Some (lift q)).
Proof. unfold lift, pseq, yseq. destruct p as [e []], q as [e' []]; reflexivity. Qed.

Lemma yenc_many_lift (f : val -> ty -> pout) g l ms :
  (forall x m, In (x, m) (combine l ms) -> g x m = Some (lift (f x m))) ->
  yenc_many g l ms = Some (lift (enc_many f l ms)).
Proof.
  revert ms; induction l as [|x l IH]; intros [|m ms] H; try reflexivity.
  cbn [yenc_many enc_many]. rewrite lift_yseq, (H x m), IH; [reflexivity| |now left].
  intros. apply H. now right.
Qed.

Lemma yenc_all_lift (f : val -> ty -> pout) g l t :
  (forall x, In x l -> g x t = Some (lift (f x t))) -> yenc_all g l t = Some (lift (enc_all f l t)).
Proof.
  induction l as [|x l IH]; intro H; [reflexivity|]. cbn [yenc_all enc_all].
  rewrite lift_yseq, (H x), IH; [reflexivity| |now left]. intros. apply H. now right.
Qed.

Lemma yenc_norec G o rec v : forall t, wt G v t = true -> tall nrec t = true -> yenc G o rec v t = Some (lift (enc G o v t)).
Proof.
  induction v as [n|l IH| |v IH|i v IH| |l|l] using val_ind'; intros t Hw Ht;
    destruct t as [w isb| |w sg zz| |si ms|k|n' t'|ts|s cg t'|s k t'|dc t'|t'|t'|ik meta alts|n'|k|s t'];
    cbn [wt] in Hw; try discriminate; try reflexivity; cbn [yenc enc tall nrec andb] in *;
    try discriminate.
  - rewrite Forall_forall in IH. apply yenc_many_lift. intros x m Hin. apply IH.
    + eapply in_combine_l; eauto.
    + eapply (forall2b_in (fun x m => wt G x m)); eauto.
    + eapply in_combine_forallb; eauto.
  - rewrite Forall_forall in IH. apply andb_true_iff in Hw as [_ Hw]. rewrite forallb_forall in Hw.
    apply yenc_all_lift. auto.
  - rewrite Forall_forall in IH. apply yenc_many_lift. intros x m Hin. apply IH.
    + eapply in_combine_l; eauto.
    + eapply (forall2b_in (fun x m => wt G x m)); eauto.
    + eapply in_combine_forallb; eauto.
  - rewrite Forall_forall in IH. rewrite forallb_forall in Hw. rewrite lift_yseq. f_equal. apply yenc_all_lift. auto.
  - rewrite Forall_forall in IH. apply andb_true_iff in Hw as [Hw _]. rewrite forallb_forall in Hw.
    rewrite lift_yseq. f_equal. apply yenc_all_lift. auto.
  - rewrite Forall_forall in IH. rewrite forallb_forall in Hw. rewrite lift_yseq. f_equal. apply yenc_all_lift. auto.
  - rewrite lift_yseq, IH; auto.
  - rewrite lift_yseq, IH; auto.
  - auto.
  - destruct (nth_error alts i) as [t'|] eqn:Ea; [|discriminate].
    destruct (nth_error meta i) as [[id dc]|].
    + rewrite lift_yseq, IH; auto. rewrite forallb_forall in Ht. apply Ht. eapply nth_error_In; eauto.
    + reflexivity.
Qed.

Lemma run_w_emits G c b (wr : val -> ty -> act) (en : val -> ty -> yout) ts self :
  object G self ts ->
  (forall x t, wt G x t = true -> wf G t = true -> item_ok b t -> yemits c b (wr x t) (en x t)) ->
  forall p, psound G (item_ok b) ts p ->
    yemits c b (run_w wr self p) (ypath en self p).
Proof.
  intros Hob Hit p. induction p as [|e| |i t k IH|t f k IH|f k IH]; cbn [psound run_w ypath].
  - intros _. apply yemits_ret.
  - intros _. apply yemits_some, xemits_fail.
  - intros _. apply yemits_some, xemits_throw.
  - intros ((t0 & E0 & Hwt) & Hw & Q & Hk).
    destruct (nth_error self i) as [x|] eqn:Ex.
    + apply yemits_seq; auto. apply Hit; auto. rewrite Hwt. eapply nth_object; eauto.
    + exfalso. apply nth_error_None in Ex. pose proof (forall2b_length _ _ _ Hob).
      assert (i < length ts)%nat by (apply nth_error_Some; congruence). lia.
  - intros (Hw & Q & Hf & Hk). apply yemits_seq; auto.
  - intros [_ Hk]. auto.
Qed.

Theorem wser_emits G c b rec erec :
  szok c = true -> wf_env G -> tall_env elem_ok G -> (b = false -> tall_env not_bitset G) ->
  (forall k l, object G l (t_mems G k) -> yemits c b (rec k l) (erec k l)) ->
  forall v t, wt G v t = true -> wf G t = true -> item_ok b t ->
    yemits c b (wser c rec v t) (yenc G (fmt_of c) erec v t).
Proof.
  intros Hsz HwfG HplG HnbG HF.
  induction v as [n|l IH| |v IH|i v IH| |l|l] using val_ind';
    intros t Hwt Hwf [Hpl Hnb];
    destruct t as [w isb| |w sg zz| |si ms|k|n' t'|ts|s cg t'|s k t'|dc t'|t'|t'|ik meta alts|n'|k|s t'];
    cbn [wt] in Hwt; try discriminate; try (destruct k as [s|nv|]; discriminate);
    try (match goal with |- yemits _ _ (wser _ _ ?v ?t) _ =>
           change (wser c rec v t) with (ser G c v t);
           change (yenc G (fmt_of c) erec v t) with (Some (lift (enc G (fmt_of c) v t)));
           apply yemits_lift; apply (ser_emits G c b); auto end).
  - (* struct *)
    cbn [wser]. destruct (negb (s_expl si) && is_empty (TStruct si ms)) eqn:Eem.
    { apply andb_true_iff in Eem as [_ Eem]. destruct ms; [|discriminate].
      destruct l; [|discriminate]. apply yemits_ret. }
    destruct (as_bytes c (TStruct si ms)) eqn:Eab.
    { rewrite yenc_norec; auto.
      - rewrite (objrep_enc G c (VSeq l) (TStruct si ms)); auto.
        + apply (yemits_lift c b _ (pdone _)), emits_put_bytes.
        + destruct ms; [|reflexivity].
          unfold as_bytes in Eab. cbn in Eab. rewrite !andb_false_r in Eab. discriminate.
      - apply bytes_nrec with (c := c). exact Eab. }
    cbn [yenc].
    apply (yemits_many _ _ c b (fun x t => wt G x t = true /\ wf G t = true /\ item_ok b t)).
    + eapply Forall_impl; [|exact IH]. cbn. intros ? ? ? (?&?&?); auto.
    + eapply forall2b_length; eauto.
    + cbn [wf] in Hwf. rewrite !andb_true_iff in Hwf. destruct Hwf as [[_ Hwf] _].
      unfold plain in Hpl. cbn [tall elem_ok andb] in Hpl. cbn [tall not_bitset andb] in Hnb.
      intros x m Hin; repeat split.
      * eapply (forall2b_in (fun x m => wt G x m)); eauto.
      * eapply in_combine_forallb; eauto.
      * eapply (in_combine_forallb (tall elem_ok)); eauto.
      * intro Hb; eapply (in_combine_forallb (tall not_bitset)); eauto.
  - (* named class *) cbn [wser yenc]. apply HF. exact Hwt.
  - (* array *)
    cbn [wser].
    unfold plain in Hpl. cbn [tall elem_ok] in Hpl.
    apply andb_true_iff in Hpl as [He Hpl]. apply negb_true_iff in He.
    cbn [wf] in Hwf. apply andb_true_iff in Hwf as [Hn0 Hwf].
    pose proof Hwt as Hwt0. apply andb_true_iff in Hwt as [Hlen Hwt]. rewrite forallb_forall in Hwt.
    cbn [tall not_bitset andb] in Hnb.
    rewrite Forall_forall in IH.
    destruct (as_bytes c t') eqn:Eab.
    + cbn [yenc objrep]. rewrite (yenc_all_lift (enc G (fmt_of c))).
      * rewrite (enc_all_bytes G (fmt_of c) c); [apply yemits_lift, emits_put_bytes|].
        rewrite Forall_forall. intros x Hin. apply objrep_enc; auto.
      * intros x Hin. apply yenc_norec; auto. eapply bytes_nrec; eauto.
    + cbn [yenc]. apply yemits_all. rewrite Forall_forall. intros x Hin. apply IH; auto. now split.
  - (* tuple *)
    cbn [wser yenc].
    apply (yemits_many _ _ c b (fun x t => wt G x t = true /\ wf G t = true /\ item_ok b t)).
    + eapply Forall_impl; [|exact IH]. cbn. intros ? ? ? (?&?&?); auto.
    + eapply forall2b_length; eauto.
    + cbn [wf] in Hwf.
      unfold plain in Hpl. cbn [tall elem_ok andb] in Hpl. cbn [tall not_bitset andb] in Hnb.
      intros x m Hin; repeat split.
      * eapply (forall2b_in (fun x m => wt G x m)); eauto.
      * eapply in_combine_forallb; eauto.
      * eapply (in_combine_forallb (tall elem_ok)); eauto.
      * intro Hb; eapply (in_combine_forallb (tall not_bitset)); eauto.
  - (* vector *)
    cbn [wser yenc].
    unfold plain in Hpl. cbn [tall elem_ok] in Hpl.
    apply andb_true_iff in Hpl as [He Hpl]. apply negb_true_iff in He.
    cbn [wf] in Hwf. apply andb_true_iff in Hwf as [Hs Hwf].
    rewrite forallb_forall in Hwt. cbn [tall not_bitset andb] in Hnb.
    rewrite Forall_forall in IH.
    apply yemits_seq; [apply (yemits_lift c b _ (pdone _)); now apply emits_size|].
    destruct (as_bytes c t') eqn:Eab; [destruct cg|]; cbn [andb].
    + rewrite (yenc_all_lift (enc G (fmt_of c))).
      * rewrite (enc_all_bytes G (fmt_of c) c); [apply yemits_lift, emits_put_bytes|].
        rewrite Forall_forall. intros x Hin. apply objrep_enc; auto.
      * intros x Hin. apply yenc_norec; auto. eapply bytes_nrec; eauto.
    + apply yemits_all. rewrite Forall_forall. intros x Hin. apply IH; auto. now split.
    + apply yemits_all. rewrite Forall_forall. intros x Hin. apply IH; auto. now split.
  - (* associative *)
    cbn [wser yenc].
    unfold plain in Hpl. cbn [tall elem_ok andb] in Hpl.
    cbn [wf] in Hwf. apply andb_true_iff in Hwf as [Hs Hwf].
    apply andb_true_iff in Hwt as [Hwt _].
    rewrite forallb_forall in Hwt. cbn [tall not_bitset andb] in Hnb.
    rewrite Forall_forall in IH.
    apply yemits_seq; [apply (yemits_lift c b _ (pdone _)); now apply emits_size|].
    apply yemits_all. rewrite Forall_forall. intros x Hin. apply IH; auto. now split.
  - (* span *)
    cbn [wser yenc].
    unfold plain in Hpl. cbn [tall elem_ok] in Hpl.
    apply andb_true_iff in Hpl as [He Hpl]. apply negb_true_iff in He.
    cbn [wf] in Hwf. apply andb_true_iff in Hwf as [Hs Hwf].
    rewrite forallb_forall in Hwt. cbn [tall not_bitset andb] in Hnb.
    rewrite Forall_forall in IH.
    apply yemits_seq; [apply (yemits_lift c b _ (pdone _)); now apply emits_size|].
    destruct (as_bytes c t') eqn:Eab.
    + rewrite (yenc_all_lift (enc G (fmt_of c))).
      * rewrite (enc_all_bytes G (fmt_of c) c); [apply yemits_lift, emits_put_bytes|].
        rewrite Forall_forall. intros x Hin. apply objrep_enc; auto.
      * intros x Hin. apply yenc_norec; auto. eapply bytes_nrec; eauto.
    + apply yemits_all. rewrite Forall_forall. intros x Hin. apply IH; auto. now split.
  - (* optional *) cbn [wser yenc]. apply yemits_seq.
    + unfold ser_flag. rewrite scalar_bytes_wscalar, wscalar_1. apply (yemits_lift c b _ (pdone _)), emits_put.
    + apply IH; auto. now split.
  - (* optional_ptr *) cbn [wser yenc]. apply yemits_seq.
    + unfold ser_flag. rewrite scalar_bytes_wscalar, wscalar_1. apply (yemits_lift c b _ (pdone _)), emits_put.
    + apply IH; auto. now split.
  - (* pointer *) cbn [wser yenc]. apply IH; auto. now split.
  - (* variant *)
    cbn [wser yenc]. destruct (nth_error alts i) as [t'|] eqn:Ei; [|discriminate].
    cbn [wf] in Hwf. rewrite !andb_true_iff in Hwf.
    destruct Hwf as [[[[_ Hlen] _] Hids] Hwf]. apply Nat.eqb_eq in Hlen.
    assert (Hi : (i < length meta)%nat).
    { rewrite Hlen. apply nth_error_Some. congruence. }
    destruct (nth_error meta i) as [[id dc]|] eqn:Em;
      [|apply nth_error_None in Em; lia].
    pose proof (nth_error_In _ _ Ei) as Hin.
    unfold plain in Hpl. cbn [tall elem_ok andb] in Hpl. cbn [tall not_bitset andb] in Hnb.
    rewrite forallb_forall in Hwf, Hpl.
    apply yemits_seq.
    + apply (yemits_lift c b _ (pdone _)). unfold ser_id, wire_id. destruct ik as [w|n].
      * rewrite scalar_bytes_wscalar. apply emits_put.
      * apply emits_put_bytes.
    + apply IH; auto. split; [now apply Hpl|]. intro Hb. specialize (Hnb Hb). rewrite forallb_forall in Hnb. auto.
Qed.

Theorem pser_emits G F c b :
  szok c = true -> wf_env G -> tall_env elem_ok G -> (b = false -> tall_env not_bitset G) ->
  (forall k, psound G (item_ok b) (t_mems G k) (F k)) ->
  forall n v t, wt G v t = true -> wf G t = true -> item_ok b t ->
    yemits c b (pser F c n v t) (penc G F (fmt_of c) n v t).
Proof.
  intros Hsz HG Hpl Hnb HF n.
  assert (HR : forall k l, object G l (t_mems G k) -> yemits c b (pser_rec F c n k l) (penc_rec G F (fmt_of c) n k l)).
  { induction n as [|n IH]; intros k l Ho; cbn [pser_rec penc_rec]; [discriminate|].
    apply run_w_emits with (G := G) (ts := t_mems G k); auto. intros. now apply wser_emits. }
  intros. unfold pser, penc. now apply wser_emits.
Qed.

(** ** The depth does not matter *)

Definition yle (p q : yout) : Prop := forall e, p = Some e -> q = Some e.

Lemma yle_refl p : yle p p.
Proof. intros e H; exact H. Qed.

Lemma yle_seq a a' b b' : yle a a' -> yle b b' -> yle (yseq a b) (yseq a' b').
Proof.
  intros H1 H2 e E. unfold yseq in *. destruct a as [[e1 s1]|]; [|discriminate].
  rewrite (H1 _ eq_refl). destruct s1; [exact E|]. destruct b as [p|]; [|discriminate].
  now rewrite (H2 _ eq_refl).
Qed.

Lemma yle_many f g l : Forall (fun x => forall t, yle (f x t) (g x t)) l -> forall ms, yle (yenc_many f l ms) (yenc_many g l ms).
Proof.
  induction 1 as [|x l Hx _ IH]; intros [|m ms]; cbn [yenc_many]; try apply yle_refl. apply yle_seq; auto.
Qed.

Lemma yle_all f g l t : Forall (fun x => yle (f x t) (g x t)) l -> yle (yenc_all f l t) (yenc_all g l t).
Proof. induction 1 as [|x l Hx _ IH]; cbn [yenc_all]; [apply yle_refl|]. apply yle_seq; auto. Qed.

Lemma yenc_mono G o r r' : (forall k l, yle (r k l) (r' k l)) -> forall v t, yle (yenc G o r v t) (yenc G o r' v t).
Proof.
  intro H. induction v as [n|l IH| |v IH|i v IH| |l|l] using val_ind'; intros t;
    destruct t; cbn [yenc]; try apply yle_refl; try (destruct l; apply yle_refl);
    try (apply yle_seq; [apply yle_refl|]); auto using yle_many.
  - apply yle_all. eapply Forall_impl; [|exact IH]. cbn; auto.
  - apply yle_all. eapply Forall_impl; [|exact IH]. cbn; auto.
  - apply yle_all. eapply Forall_impl; [|exact IH]. cbn; auto.
  - apply yle_all. eapply Forall_impl; [|exact IH]. cbn; auto.
  - destruct (nth_error meta i) as [[id dc]|], (nth_error alts i); try apply yle_refl.
    apply yle_seq; [apply yle_refl|auto].
Qed.

Lemma ypath_mono f g self p : (forall x t, yle (f x t) (g x t)) -> yle (ypath f self p) (ypath g self p).
Proof.
  intro H. induction p as [|e| |i t k IH|t f' k IH|f' k IH]; cbn [ypath]; try apply yle_refl; auto.
  - destruct (nth_error self i); [|apply yle_refl]. apply yle_seq; auto.
  - apply yle_seq; auto.
Qed.

Lemma penc_rec_mono G F o n m : (n <= m)%nat -> forall k l, yle (penc_rec G F o n k l) (penc_rec G F o m k l).
Proof.
  revert m. induction n as [|n IH]; intros m Hm k l; cbn [penc_rec]; [discriminate|].
  destruct m as [|m]; [lia|]. cbn [penc_rec]. apply ypath_mono. intros. apply yenc_mono. intros. apply IH. lia.
Qed.

Theorem penc_mono G F o n m v t e : (n <= m)%nat -> penc G F o n v t = Some e -> penc G F o m v t = Some e.
Proof. intros H. unfold penc. apply yenc_mono. intros. now apply penc_rec_mono. Qed.

Corollary spells_unique G F o v t e e' : spells G F o v t e -> spells G F o v t e' -> e = e'.
Proof.
  intros [n H] [m H']. apply (penc_mono _ _ _ n (n + m)) in H; [|lia]. apply (penc_mono _ _ _ m (n + m)) in H'; [|lia].
  congruence.
Qed.
