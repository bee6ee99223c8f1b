(** Functions that move the position: output is a file with a cursor. *)

From Coq Require Import List NArith ZArith Lia Bool Arith.
From Coq Require Import ZifyBool ZifyNat ZifyN.
From Verif Require Import Base.Bytes Model.Types Model.Machine Model.Varint Model.Out Model.In Model.Pb
  Model.Custom Model.CustomSeek Spec.Leb128 Spec.Wire Spec.File Spec.CustomWire Spec.CustomFile
  Proofs.VarintP Proofs.OutP Proofs.CustomP Proofs.CustomIn Thm.Seek.
Import ListNotations.
Local Open Scope N_scope.

Ltac Zify.zify_post_hook ::= Z.div_mod_to_equations.

(** ** Files *)

Lemma pwrite_cons d p b e : (p <= length d)%nat -> pwrite (pwrite d p [b]) (S p) e = pwrite d p (b :: e).
Proof.
  intro H. unfold pwrite. cbn [length app].
  rewrite firstn_app, firstn_length, Nat.min_l by exact H.
  rewrite firstn_all2 by (rewrite firstn_length; lia).
  replace (S p - p)%nat with 1%nat by lia. cbn [firstn app].
  rewrite <- app_assoc. cbn [app]. do 3 f_equal.
  rewrite skipn_app, firstn_length, Nat.min_l by exact H.
  rewrite skipn_all2 by (rewrite firstn_length; lia). cbn [app].
  replace (S p + length e - p)%nat with (S (length e)) by lia. cbn [skipn].
  rewrite skipn_skipn. f_equal. lia.
Qed.

Lemma pwrite_nil d p : (p <= length d)%nat -> pwrite d p [] = d.
Proof. intro H. unfold pwrite. cbn [length app]. rewrite Nat.add_0_r. apply firstn_skipn. Qed.

Lemma pwrite_app d p e1 e2 : (p <= length d)%nat ->
  pwrite (pwrite d p e1) (p + length e1) e2 = pwrite d p (e1 ++ e2).
Proof.
  revert d p; induction e1 as [|b e1 IH]; intros d p H; cbn [length app].
  - rewrite pwrite_nil by exact H. now rewrite Nat.add_0_r.
  - rewrite <- (pwrite_cons d p b e1), <- (pwrite_cons d p b (e1 ++ e2)) by exact H.
    replace (p + S (length e1))%nat with (S p + length e1)%nat by lia. apply IH.
    rewrite pwrite_length by exact H. cbn. lia.
Qed.

Lemma play_puts e : forall d p, (p <= length d)%nat ->
  play (map FPut e) (mkF d p) = mkF (pwrite d p e) (p + length e).
Proof.
  unfold play. induction e as [|b e IH]; intros d p H; cbn [map fold_left fdo f_data f_pos length].
  - now rewrite pwrite_nil, Nat.add_0_r by exact H.
  - rewrite IH by (rewrite pwrite_length by exact H; cbn; lia).
    rewrite pwrite_cons by exact H. f_equal. lia.
Qed.

Lemma play_app a b f : play (a ++ b) f = play b (play a f).
Proof. apply fold_left_app. Qed.

Lemma seated_app a b : forall f, seated (a ++ b) f <-> seated a f /\ seated b (play a f).
Proof.
  unfold play. induction a as [|o a IH]; intro f; cbn [app seated fold_left]; [tauto|].
  rewrite IH. tauto.
Qed.

Lemma seated_puts e : forall f, seated (map FPut e) f.
Proof. induction e as [|b e IH]; intro f; cbn [map seated]; auto. Qed.

Lemma cursor_play os : forall f, cursor os (f_pos f) = f_pos (play os f).
Proof.
  unfold cursor, play. induction os as [|[b|n] os IH]; intro f; cbn [fold_left]; [reflexivity|..];
    rewrite <- IH; reflexivity.
Qed.

Lemma play_in os : forall f, seated os f -> (f_pos f <= length (f_data f))%nat ->
  (f_pos (play os f) <= length (f_data (play os f)))%nat
  /\ (length (f_data f) <= length (f_data (play os f)))%nat.
Proof.
  unfold play. induction os as [|[b|n] os IH]; intros f HS H; cbn [fold_left]; [lia| |]; destruct HS as [H1 H2];
    specialize (IH _ H2); cbn [fdo f_data f_pos] in *; auto.
  rewrite pwrite_length in IH by exact H. cbn [length] in IH. lia.
Qed.

(** ** What an action does to a file *)

Definition ends (c : cfg) (d : list byte) (ops : list fop) (s : option stop) (p : nat) (o2 : list fop) (r : res) : Prop :=
  match r with
  | ROk => o2 = [] /\ s = None
  | RErr er =>
      (o2 = [] /\ s = Some (Failed er)) \/
      (er = result_out_of_range /\ growable c = false
       /\ (length d < length (f_data (play ops (mkF d p))))%nat) \/
      (er = no_buffer_space /\ growable c = true)
  | RThrow => (o2 = [] /\ s = Some Threw) \/ growable c = true
  | _ => False
  end.

Definition leads (c : cfg) (a : act) (T : trace) : Prop :=
  wf_out c -> forall d k p,
  ost_ok (mkO (d ++ zeros k) p) -> (p <= length d)%nat -> (growable c = false -> k = O) ->
  seated (fst (T p)) (mkF d p) ->
  N.of_nat (length (f_data (play (fst (T p)) (mkF d p)))) < 2 ^ 63 ->
  let '(r, st') := a (mkO (d ++ zeros k) p) in
  ost_ok st' /\
  (exists o1 o2 d' k',
    fst (T p) = o1 ++ o2 /\ play o1 (mkF d p) = mkF d' (opos st') /\ obuf st' = d' ++ zeros k'
    /\ (growable c = false -> k' = O /\ length d' = length d)
    /\ ends c d (fst (T p)) (snd (T p)) p o2 r) /\
  (forall E, rich c E -> (length (f_data (play (fst (T p)) (mkF d p))) <= E)%nat -> r = tresult (snd (T p))).

Lemma leads_eq c a T T' : (forall p, T p = T' p) -> leads c a T -> leads c a T'.
Proof. intros E H Hwf d k p. rewrite <- (E p). now apply H. Qed.

Lemma xemits_leads c a x : xemits c false a x -> leads c a (puts x).
Proof.
  intros H Hwf d k p Hok Hp Hk _ Hl. unfold puts in *. cbn [fst snd] in *.
  rewrite play_puts in * by exact Hp. cbn [f_data] in *. rewrite pwrite_length in * by exact Hp.
  specialize (H Hwf ltac:(lia) _ Hok ltac:(discriminate)).
  destruct (a (mkO (d ++ zeros k) p)) as [r st'].
  destruct H as [HO HR]. split; [eapply xoutcome_ok_state; eauto|]. split.
  - destruct HO as (e1 & e2 & k2 & F1 & F2 & F3 & F4 & F5). cbn [obuf opos] in *.
    rewrite <- app_assoc, <- zeros_app in F2. rewrite app_length, zeros_length in *.
    destruct (overwrite_zeros d (k + k2) p e1 Hp ltac:(lia)) as (j & J1 & J2).
    exists (map FPut e1), (map FPut e2), (pwrite d p e1), j. rewrite F2. cbn [obuf opos].
    rewrite F1, map_app. split; [reflexivity|]. split; [now apply play_puts|]. split; [exact J1|].
    rewrite pwrite_length in * by exact Hp.
    split.
    { intro Hg. specialize (Hk Hg). destruct F4 as [->|[F4 _]]; [|congruence]. lia. }
    unfold ends. destruct r as [|er| | |]; try tauto.
    + destruct F5 as [-> F5]. auto.
    + destruct F5 as [[-> F5]|[(F5 & F6 & F7)|F5]]; [left; auto| |auto].
      right. left. split; [exact F5|]. split; [exact F6|]. rewrite <- map_app, <- F1, play_puts by exact Hp.
      cbn [f_data]. rewrite pwrite_length by exact Hp. specialize (Hk F6). lia.
    + destruct F5 as [[-> F5]|F5]; auto.
  - intros E HE HE2. unfold tresult. rewrite (HR E HE); [reflexivity|]. cbn [opos]. lia.
Qed.

Lemma leads_seq c a1 a2 T1 T2 : leads c a1 T1 -> leads c a2 T2 -> leads c (a1 ;; a2) (tseq T1 T2).
Proof.
  intros H1 H2 Hwf d k p Hok Hp Hk Hs Hl. unfold tseq in *.
  specialize (H1 Hwf d k p Hok Hp Hk).
  destruct (T1 p) as [ops1 s1] eqn:E1. cbn [fst snd] in *.
  unfold seq. destruct s1 as [s1|].
  - specialize (H1 Hs Hl). destruct (a1 _) as [r1 st1]. destruct H1 as (O1 & X & R1).
    destruct r1; try (split; [exact O1|]; split; [exact X|exact R1]).
    destruct X as (o1 & o2 & d' & k' & _ & _ & _ & _ & X). cbn in X. destruct X. discriminate.
  - destruct (T2 (cursor ops1 p)) as [ops2 s2] eqn:E2. cbn [fst snd] in *.
    apply seated_app in Hs as [Hs1 Hs2]. rewrite play_app in *.
    destruct (play_in ops1 (mkF d p) Hs1 Hp) as [P1 P2].
    destruct (play_in ops2 _ Hs2 P1) as [P3 P4]. cbn [f_data] in P2.
    specialize (H1 Hs1 ltac:(lia)). destruct (a1 _) as [r1 st1].
    destruct H1 as (O1 & (o1 & o2 & d' & k' & X1 & X2 & X3 & X4 & X5) & R1).
    assert (Hfail : r1 <> ROk ->
      ost_ok st1 /\
      (exists o1 o2 d' k',
        ops1 ++ ops2 = o1 ++ o2 /\ play o1 (mkF d p) = mkF d' (opos st1) /\ obuf st1 = d' ++ zeros k'
        /\ (growable c = false -> k' = O /\ length d' = length d)
        /\ ends c d (ops1 ++ ops2) s2 p o2 r1) /\
      (forall E, rich c E -> (length (f_data (play ops2 (play ops1 (mkF d p)))) <= E)%nat -> r1 = tresult s2)).
    { intro Hr. split; [exact O1|]. split.
      - exists o1, (o2 ++ ops2), d', k'. rewrite X1, app_assoc. split; [reflexivity|].
        split; [exact X2|]. split; [exact X3|]. split; [exact X4|].
        unfold ends in *. destruct r1 as [|er| | |]; try tauto.
        + destruct X5 as [[_ X5]|[(X5 & X6 & X7)|X5]]; [discriminate| |auto].
          right. left. split; [exact X5|]. split; [exact X6|]. rewrite <- X1, play_app. lia.
        + destruct X5 as [[_ X5]|X5]; [discriminate|auto].
      - intros E HE HE2. exfalso. apply Hr. apply (R1 E HE). lia. }
    destruct r1; try (apply Hfail; discriminate). clear Hfail. destruct X5 as [-> _]. rewrite app_nil_r in X1. subst o1.
    destruct st1 as [b1 p1]. cbn [obuf opos] in *. subst b1.
    pose proof (cursor_play ops1 (mkF d p)) as C. cbn [f_pos] in C. rewrite X2 in *. cbn [f_data f_pos] in *. rewrite C in E2.
    specialize (H2 Hwf d' k' p1 O1 P1 ltac:(apply X4)). rewrite E2 in H2. cbn [fst snd] in H2.
    specialize (H2 Hs2 Hl). destruct (a2 _) as [r2 st2].
    destruct H2 as (O2 & (u1 & u2 & d2 & k2 & Y1 & Y2 & Y3 & Y4 & Y5) & R2).
    split; [exact O2|]. split; [|exact R2].
    exists (ops1 ++ u1), u2, d2, k2. rewrite Y1, app_assoc. split; [reflexivity|].
    split; [rewrite play_app, X2; exact Y2|]. split; [exact Y3|].
    split; [intro Hg; specialize (Y4 Hg); destruct (X4 Hg); intuition congruence|].
    unfold ends in *. destruct r2 as [|er| | |]; auto.
    destruct Y5 as [Y5|[(Y5 & Y6 & Y7)|Y5]]; auto.
    right. left. split; [exact Y5|]. split; [exact Y6|]. rewrite <- app_assoc, <- Y1, play_app, X2. destruct (X4 Y6). lia.
Qed.

Lemma leads_ret c : leads c ret (puts xnil).
Proof. apply xemits_leads, xemits_ret. Qed.

(** ** Every value of every type *)

Lemma leads_many (f : val -> ty -> act) (g : val -> ty -> trace) c (I : val -> ty -> Prop) l ms :
  Forall (fun x => forall t, I x t -> leads c (f x t) (g x t)) l ->
  length l = length ms ->
  (forall x m, In (x, m) (combine l ms) -> I x m) ->
  leads c (ser_many f l ms) (tenc_many g l ms).
Proof.
  intro H. revert ms; induction H as [|x l Hx _ IH]; intros ms Hlen Hin.
  - destruct ms; [apply leads_ret | discriminate].
  - destruct ms as [|m ms]; [discriminate|]. cbn [ser_many tenc_many].
    apply leads_seq.
    + apply Hx, Hin. left; reflexivity.
    + apply IH; [now injection Hlen|]. intros y n Hy. apply Hin. right; exact Hy.
Qed.

Lemma leads_all (f : val -> ty -> act) (g : val -> ty -> trace) c l t :
  Forall (fun x => leads c (f x t) (g x t)) l ->
  leads c (ser_all f l t) (tenc_all g l t).
Proof.
  induction 1 as [|x l Hx _ IH]; [apply leads_ret|].
  cbn [ser_all tenc_all]. now apply leads_seq.
Qed.

Lemma tseq_puts x y p : tseq (puts x) (puts y) p = puts (xseq x y) p.
Proof. unfold tseq, puts, xseq. destruct (snd x) eqn:E; cbn [fst snd]; [now rewrite E|]. now rewrite map_app. Qed.

Lemma tseq_ext a a' b b' p : (forall p, a p = a' p) -> (forall p, b p = b' p) -> tseq a b p = tseq a' b' p.
Proof. intros H1 H2. unfold tseq. rewrite H1. destruct (a' p) as [o [s|]]; [reflexivity|]. now rewrite H2. Qed.

Lemma tenc_many_puts (f : val -> ty -> xout) g l ms :
  (forall x m, In (x, m) (combine l ms) -> forall p, g x m p = puts (f x m) p) ->
  forall p, tenc_many g l ms p = puts (xenc_many f l ms) p.
Proof.
  revert ms; induction l as [|x l IH]; intros [|m ms] H p; try reflexivity.
  cbn [tenc_many xenc_many]. rewrite <- tseq_puts. apply tseq_ext.
  - apply H. now left.
  - intro q. apply IH. intros. apply H. now right.
Qed.

Lemma tenc_all_puts (f : val -> ty -> xout) g l t :
  (forall x, In x l -> forall p, g x t p = puts (f x t) p) ->
  forall p, tenc_all g l t p = puts (xenc_all f l t) p.
Proof.
  induction l as [|x l IH]; intros H p; [reflexivity|]. cbn [tenc_all xenc_all].
  rewrite <- tseq_puts. apply tseq_ext.
  - apply H. now left.
  - intro q. apply IH. intros. apply H. now right.
Qed.

(** Classes whose functions do not move. *)
Lemma tpath_still G o (ts : list (ty -> trace)) (es : list (ty -> xout)) self :
  Forall2 (fun a e => forall t p, a t p = puts (e t) p) ts es ->
  forall q p, tpath G o ts self (still q) p = puts (path G o es self q) p.
Proof.
  intros H. induction q as [|e| |i t k IH|t f k IH|f k IH]; intro p; cbn [still tpath path]; try reflexivity.
  - assert (X : match nth_error ts i, nth_error es i with
                | Some a, Some e => forall t p, a t p = puts (e t) p | None, None => True | _, _ => False end).
    { clear IH. revert i; induction H; intros [|i]; cbn; auto. apply IHForall2. }
    destruct (nth_error ts i), (nth_error es i); try contradiction; [|reflexivity].
    rewrite <- tseq_puts. apply tseq_ext; auto.
  - rewrite <- tseq_puts. apply tseq_ext; auto.
  - apply IH.
Qed.

Lemma tenc_still G F o v : forall t p, tenc G (fun k => still (F k)) o v t p = puts (xenc G F o v t) p.
Proof.
  induction v as [n|l IH| |v IH|i v IH| |l|l] using val_ind'; intros t p;
    destruct t as [w isb| |w sg zz| |si ms|k|n' t'|ts|s cg t'|s k t'|dc t'|t'|t'|ik meta alts|n'|k|s t'];
    try reflexivity; cbn [tenc xenc] in *.
  all: try (rewrite Forall_forall in IH; apply tenc_many_puts; intros x m Hin q; apply IH;
            eapply in_combine_l; eauto).
  all: try (rewrite <- tseq_puts; apply tseq_ext; [reflexivity|]; intro q;
            rewrite Forall_forall in IH; apply tenc_all_puts; auto).
  all: try (rewrite <- tseq_puts; apply tseq_ext; [reflexivity|]; intro q; apply IH).
  - apply tpath_still. clear -IH. induction IH; cbn [map]; constructor; auto.
  - rewrite Forall_forall in IH; apply tenc_all_puts; auto.
  - apply IH.
  - destruct (nth_error meta i) as [[id dc]|]; [|reflexivity]. destruct (nth_error alts i); [|reflexivity].
    rewrite <- tseq_puts. apply tseq_ext; auto.
Qed.

(** Types without named classes. *)
Lemma tenc_many_ext (g g' : val -> ty -> trace) l ms :
  (forall x m, In (x, m) (combine l ms) -> forall p, g x m p = g' x m p) ->
  forall p, tenc_many g l ms p = tenc_many g' l ms p.
Proof.
  revert ms; induction l as [|x l IH]; intros [|m ms] H p; try reflexivity.
  cbn [tenc_many]. apply tseq_ext; [apply H; now left|]. intro q. apply IH. intros. apply H. now right.
Qed.

Lemma tenc_all_ext (g g' : val -> ty -> trace) l t :
  (forall x, In x l -> forall p, g x t p = g' x t p) ->
  forall p, tenc_all g l t p = tenc_all g' l t p.
Proof.
  induction l as [|x l IH]; intros H p; [reflexivity|].
  cbn [tenc_all]. apply tseq_ext; [apply H; now left|]. intro q. apply IH. intros. apply H. now right.
Qed.

Lemma tenc_norec G F o v t p : wt G v t = true -> tall nrec t = true ->
  tenc G F o v t p = puts (lift (enc G o v t)) p.
Proof.
  assert (E : forall v t p, tall nrec t = true -> tenc G F o v t p = tenc G (fun k => still PRet) o v t p).
  { clear v t p. induction v as [n|l IH| |v IH|i v IH| |l|l] using val_ind'; intros t p Ht;
    destruct t as [w isb| |w sg zz| |si ms|k|n' t'|ts|s cg t'|s k t'|dc t'|t'|t'|ik meta alts|n'|k|s t'];
    try reflexivity; cbn [tenc tall nrec andb] in *; try discriminate; try rewrite Forall_forall in IH;
    try (apply tenc_many_ext; intros x m Hin q; apply IH;
         [eapply in_combine_l; eauto|eapply (in_combine_forallb (tall nrec)); eauto]);
    try (apply tenc_all_ext; auto; fail);
    try (apply tseq_ext; [reflexivity|]; intro q; apply tenc_all_ext; auto; fail);
    try (apply tseq_ext; auto; fail); auto.
    destruct (nth_error meta i) as [[id dc]|]; [|reflexivity]. destruct (nth_error alts i) eqn:E; [|reflexivity].
    apply tseq_ext; auto. intro q. apply IH. rewrite forallb_forall in Ht. apply Ht. eapply nth_error_In; eauto. }
  intros Hw Ht. rewrite E by exact Ht. rewrite (tenc_still G (fun _ => PRet)).
  now rewrite xenc_norec.
Qed.

Lemma run_leads G c (ms : list (ty -> act)) (es : list (ty -> trace)) ts self :
  szok c = true -> wf_env G -> tall_env elem_ok G -> tall_env not_bitset G ->
  object G self ts ->
  (forall i a e t t0, nth_error ms i = Some a -> nth_error es i = Some e -> nth_error ts i = Some t0 ->
     (forall x, wt G x t = wt G x t0) -> wf G t = true -> item_ok false t -> leads c (a t) (e t)) ->
  length ms = length ts -> length es = length ts ->
  forall p, ssound G (item_ok false) ts p ->
    leads c (srun_out G c ms self p) (tpath G (fmt_of c) es self p).
Proof.
  intros Hsz HG Hpl Hnb Hob Hms Hl1 Hl2 p.
  induction p as [|e| |i t k IH|t f k IH|f k IH|k IH|n k IH|k IH]; cbn [ssound srun_out tpath].
  - intros _. apply leads_ret.
  - intros _. apply xemits_leads, xemits_fail.
  - intros _. apply xemits_leads, xemits_throw.
  - intros ((t0 & E0 & Hwt) & Hw & Q & Hk).
    assert (Hi : (i < length ts)%nat) by (apply nth_error_Some; congruence).
    destruct (nth_error ms i) as [a|] eqn:Ea; [|apply nth_error_None in Ea; lia].
    destruct (nth_error es i) as [e|] eqn:Ee; [|apply nth_error_None in Ee; lia].
    apply leads_seq; eauto.
  - intros (Hw & Hn & [Q1 Q2] & Hf & Hk). apply leads_seq; [|apply IH; auto].
    apply xemits_leads, emits_lift. apply (ser_emits G c false); auto.
  - intros [_ Hk]. auto.
  - intros Hk Hwf d k0 p. cbn [opos]. apply (IH p (Hk p) Hwf).
  - intros Hk Hwf d k0 p Hok Hp Hk0 Hs Hl. cbn [obuf opos] in *. specialize (IH Hk Hwf d k0 n).
    destruct (tpath G (fmt_of c) es self k n) as [os s]. cbn [fst snd] in *. destruct Hs as [Hs1 Hs2]. cbn [f_data fdo] in *.
    change (play (FSeek n :: os) (mkF d p)) with (play os (mkF d n)) in *.
    specialize (IH ltac:(destruct Hok as [O1 O2]; split; cbn [obuf opos] in *; [rewrite app_length; lia|exact O2]) Hs1 Hk0 Hs2 Hl).
    destruct (srun_out G c ms self k (mkO (d ++ zeros k0) n)) as [r st'].
    destruct IH as (I1 & (o1 & o2 & d' & k' & X1 & X2 & X3 & X4 & X5) & I3). split; [exact I1|]. split; [|exact I3].
    exists (FSeek n :: o1), o2, d', k'. rewrite X1. split; [reflexivity|]. split; [exact X2|]. split; [exact X3|].
    split; [exact X4|]. rewrite X1 in X5. exact X5.
  - intros Hk. auto.
Qed.

Lemma leads_elems G F c l t :
  as_bytes c t = true -> wf G t = true -> plain t = true -> is_empty t = false ->
  (forall x, In x l -> wt G x t = true) ->
  leads c (put_bytes c (flat_map (fun x => objrep c x t) l)) (tenc_all (tenc G F (fmt_of c)) l t).
Proof.
  intros Eab Hwf Hpl He Hwt.
  apply leads_eq with (T := puts (xenc_all (fun x t => lift (enc G (fmt_of c) x t)) l t)).
  { intro p. symmetry. apply tenc_all_puts. intros x Hin q. apply tenc_norec; auto. eapply bytes_nrec; eauto. }
  rewrite (xenc_all_lift (enc G (fmt_of c))) by reflexivity.
  rewrite (enc_all_bytes G (fmt_of c) c); [apply xemits_leads, emits_lift, emits_put_bytes|].
  rewrite Forall_forall. intros x Hin. apply objrep_enc; auto.
Qed.

Theorem sser_leads G F c :
  szok c = true -> wf_env G -> tall_env elem_ok G -> tall_env not_bitset G ->
  (forall k, ssound G (item_ok false) (t_mems G k) (F k)) ->
  forall v t, wt G v t = true -> wf G t = true -> item_ok false t ->
    leads c (sser G F c v t) (tenc G F (fmt_of c) v t).
Proof.
  intros Hsz HwfG HplG HnbG HF.
  induction v as [n|l IH| |v IH|i v IH| |l|l] using val_ind';
    intros t Hwt Hwf [Hpl Hnb]; specialize (Hnb eq_refl);
    destruct t as [w isb| |w sg zz| |si ms|k|n' t'|ts|s cg t'|s k t'|dc t'|t'|t'|ik meta alts|n'|k|s t'];
    cbn [wt] in Hwt; try discriminate; try (destruct k as [s|nv|]; discriminate);
    try (match goal with |- leads _ (sser _ _ _ ?v ?t) _ =>
           change (sser G F c v t) with (ser G c v t);
           change (tenc G F (fmt_of c) v t) with (puts (lift (enc G (fmt_of c) v t)));
           apply xemits_leads, emits_lift; apply (ser_emits G c false); auto; try (split; auto) end).
  - (* struct *)
    cbn [sser]. destruct (negb (s_expl si) && is_empty (TStruct si ms)) eqn:Eem.
    { apply andb_true_iff in Eem as [_ Eem]. destruct ms; [|discriminate].
      destruct l; [|discriminate]. apply leads_ret. }
    destruct (as_bytes c (TStruct si ms)) eqn:Eab.
    { apply leads_eq with (T := puts (lift (enc G (fmt_of c) (VSeq l) (TStruct si ms)))).
      - intro p. symmetry. apply tenc_norec; auto. apply bytes_nrec with (c := c). exact Eab.
      - rewrite (objrep_enc G c (VSeq l) (TStruct si ms)); auto.
        + apply xemits_leads, (emits_lift c false _ (pdone _)), emits_put_bytes.
        + destruct ms; [|reflexivity].
          unfold as_bytes in Eab. cbn in Eab. rewrite !andb_false_r in Eab. discriminate. }
    cbn [tenc].
    apply (leads_many _ _ c (fun x t => wt G x t = true /\ wf G t = true /\ item_ok false t)).
    + eapply Forall_impl; [|exact IH]. cbn. intros ? ? ? (?&?&?); auto.
    + eapply forall2b_length; eauto.
    + cbn [wf] in Hwf. rewrite !andb_true_iff in Hwf. destruct Hwf as [[_ Hwf] _].
      unfold plain in Hpl. cbn [tall elem_ok andb] in Hpl. cbn [tall not_bitset andb] in Hnb.
      intros x m Hin; repeat split.
      * eapply (forall2b_in (fun x m => wt G x m)); eauto.
      * eapply in_combine_forallb; eauto.
      * eapply (in_combine_forallb (tall elem_ok)); eauto.
      * intro Hb; eapply (in_combine_forallb (tall not_bitset)); eauto.
  - (* named class *)
    cbn [sser tenc]. pose proof (forall2b_length _ _ _ Hwt) as HL.
    apply run_leads with (ts := t_mems G k); auto; [|now rewrite map_length..].
    intros i a e t t0 Ha He Ht Hxt Hw HQ.
    rewrite nth_error_map in Ha, He. destruct (nth_error l i) as [x|] eqn:Ex; [|discriminate].
    cbn in Ha, He. injection Ha as <-. injection He as <-.
    rewrite Forall_forall in IH. apply IH; auto; [now apply nth_error_In in Ex|].
    rewrite Hxt. eapply nth_object; eauto.
  - (* array *)
    cbn [sser].
    unfold plain in Hpl. cbn [tall elem_ok] in Hpl.
    apply andb_true_iff in Hpl as [He Hpl]. apply negb_true_iff in He.
    cbn [wf] in Hwf. apply andb_true_iff in Hwf as [Hn0 Hwf].
    pose proof Hwt as Hwt0. apply andb_true_iff in Hwt as [Hlen Hwt]. rewrite forallb_forall in Hwt.
    cbn [tall not_bitset andb] in Hnb.
    rewrite Forall_forall in IH.
    destruct (as_bytes c t') eqn:Eab.
    + cbn [tenc objrep]. now apply leads_elems.
    + cbn [tenc]. apply leads_all. rewrite Forall_forall. intros x Hin. apply IH; auto. split; auto.
  - (* tuple *)
    cbn [sser tenc].
    apply (leads_many _ _ c (fun x t => wt G x t = true /\ wf G t = true /\ item_ok false t)).
    + eapply Forall_impl; [|exact IH]. cbn. intros ? ? ? (?&?&?); auto.
    + eapply forall2b_length; eauto.
    + cbn [wf] in Hwf.
      unfold plain in Hpl. cbn [tall elem_ok andb] in Hpl. cbn [tall not_bitset andb] in Hnb.
      intros x m Hin; repeat split.
      * eapply (forall2b_in (fun x m => wt G x m)); eauto.
      * eapply in_combine_forallb; eauto.
      * eapply (in_combine_forallb (tall elem_ok)); eauto.
      * intro Hb; eapply (in_combine_forallb (tall not_bitset)); eauto.
  - (* vector *)
    cbn [sser tenc].
    unfold plain in Hpl. cbn [tall elem_ok] in Hpl.
    apply andb_true_iff in Hpl as [He Hpl]. apply negb_true_iff in He.
    cbn [wf] in Hwf. apply andb_true_iff in Hwf as [Hs Hwf].
    rewrite forallb_forall in Hwt. cbn [tall not_bitset andb] in Hnb.
    rewrite Forall_forall in IH.
    apply leads_seq; [apply xemits_leads, (emits_lift c false _ (pdone _)); now apply emits_size|].
    destruct (as_bytes c t') eqn:Eab; [destruct cg|]; cbn [andb].
    + now apply leads_elems.
    + apply leads_all. rewrite Forall_forall. intros x Hin. apply IH; auto. split; auto.
    + apply leads_all. rewrite Forall_forall. intros x Hin. apply IH; auto. split; auto.
  - (* associative *)
    cbn [sser tenc].
    unfold plain in Hpl. cbn [tall elem_ok andb] in Hpl.
    cbn [wf] in Hwf. apply andb_true_iff in Hwf as [Hs Hwf].
    apply andb_true_iff in Hwt as [Hwt _].
    rewrite forallb_forall in Hwt. cbn [tall not_bitset andb] in Hnb.
    rewrite Forall_forall in IH.
    apply leads_seq; [apply xemits_leads, (emits_lift c false _ (pdone _)); now apply emits_size|].
    apply leads_all. rewrite Forall_forall. intros x Hin. apply IH; auto. split; auto.
  - (* span *)
    cbn [sser tenc].
    unfold plain in Hpl. cbn [tall elem_ok] in Hpl.
    apply andb_true_iff in Hpl as [He Hpl]. apply negb_true_iff in He.
    cbn [wf] in Hwf. apply andb_true_iff in Hwf as [Hs Hwf].
    rewrite forallb_forall in Hwt. cbn [tall not_bitset andb] in Hnb.
    rewrite Forall_forall in IH.
    apply leads_seq; [apply xemits_leads, (emits_lift c false _ (pdone _)); now apply emits_size|].
    destruct (as_bytes c t') eqn:Eab.
    + now apply leads_elems.
    + apply leads_all. rewrite Forall_forall. intros x Hin. apply IH; auto. split; auto.
  - (* optional *) cbn [sser tenc]. apply leads_seq.
    + unfold ser_flag. rewrite scalar_bytes_wscalar, wscalar_1. apply xemits_leads, (emits_lift c false _ (pdone _)), emits_put.
    + apply IH; auto. split; auto.
  - (* optional_ptr *) cbn [sser tenc]. apply leads_seq.
    + unfold ser_flag. rewrite scalar_bytes_wscalar, wscalar_1. apply xemits_leads, (emits_lift c false _ (pdone _)), emits_put.
    + apply IH; auto. split; auto.
  - (* pointer *) cbn [sser tenc]. apply IH; auto. split; auto.
  - (* variant *)
    cbn [sser tenc]. destruct (nth_error alts i) as [t'|] eqn:Ei; [|discriminate].
    cbn [wf] in Hwf. rewrite !andb_true_iff in Hwf.
    destruct Hwf as [[[[_ Hlen] _] Hids] Hwf]. apply Nat.eqb_eq in Hlen.
    assert (Hi : (i < length meta)%nat).
    { rewrite Hlen. apply nth_error_Some. congruence. }
    destruct (nth_error meta i) as [[id dc]|] eqn:Em;
      [|apply nth_error_None in Em; lia].
    pose proof (nth_error_In _ _ Ei) as Hin.
    unfold plain in Hpl. cbn [tall elem_ok andb] in Hpl. cbn [tall not_bitset andb] in Hnb.
    rewrite forallb_forall in Hwf, Hpl.
    apply leads_seq.
    + apply xemits_leads, (emits_lift c false _ (pdone _)). unfold ser_id, wire_id. destruct ik as [w|n].
      * rewrite scalar_bytes_wscalar. apply emits_put.
      * apply emits_put_bytes.
    + apply IH; auto. split; [now apply Hpl|]. intro Hb. rewrite forallb_forall in Hnb. auto.
Qed.
