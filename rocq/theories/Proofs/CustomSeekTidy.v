(** Functions that move the position and amount to functions that do not. *)

From Coq Require Import List NArith ZArith Lia Bool Arith.
From Coq Require Import ZifyBool ZifyNat ZifyN.
From Verif Require Import Base.Bytes Model.Types Model.Machine Model.Varint Model.Out Model.In Model.Pb
  Model.Custom Model.CustomSeek Spec.Leb128 Spec.Wire Spec.File Spec.CustomWire Spec.CustomFile
  Proofs.VarintP Proofs.OutP Proofs.CustomP Proofs.CustomIn Proofs.CustomOrder Proofs.CustomSeekOut Thm.Seek.
Import ListNotations.
Local Open Scope N_scope.

Lemma nets_puts x : nets (puts x) x.
Proof.
  intros d p Hp. unfold puts. cbn [fst snd]. split; [apply seated_puts|]. split; [reflexivity|].
  intros _. now apply play_puts.
Qed.

Lemma nets_eq T T' x : (forall p, T p = T' p) -> nets T x -> nets T' x.
Proof. intros E H d p Hp. rewrite <- (E p). now apply H. Qed.

Lemma nets_seq T1 T2 x1 x2 : nets T1 x1 -> nets T2 x2 -> nets (tseq T1 T2) (xseq x1 x2).
Proof.
  intros H1 H2 d p Hp. destruct (H1 d p Hp) as (A1 & A2 & A3). unfold tseq, xseq.
  destruct (T1 p) as [o1 s1] eqn:E1. cbn [fst snd] in *. subst s1.
  destruct (snd x1) as [s|] eqn:Es; cbn [fst snd].
  - rewrite Es. split; [exact A1|]. split; [reflexivity|]. discriminate.
  - specialize (A3 eq_refl).
    pose proof (cursor_play o1 (mkF d p)) as C. cbn [f_pos] in C. rewrite A3 in C. cbn [f_pos] in C. rewrite C.
    destruct (H2 (pwrite d p (fst x1)) (p + length (fst x1))%nat) as (B1 & B2 & B3).
    { rewrite pwrite_length by exact Hp. lia. }
    destruct (T2 _) as [o2 s2]. cbn [fst snd] in *. split.
    { apply seated_app. rewrite A3. auto. }
    split; [exact B2|]. intro Hn. rewrite play_app, A3, (B3 Hn), pwrite_app by exact Hp.
    f_equal. rewrite app_length. lia.
Qed.

Lemma nets_many (f : val -> ty -> trace) (g : val -> ty -> xout) l ms :
  (forall x m, In (x, m) (combine l ms) -> nets (f x m) (g x m)) ->
  nets (tenc_many f l ms) (xenc_many g l ms).
Proof.
  revert ms; induction l as [|x l IH]; intros [|m ms] H; cbn [tenc_many xenc_many]; try apply nets_puts.
  apply nets_seq; [apply H; now left|]. apply IH. intros. apply H. now right.
Qed.

Lemma nets_all (f : val -> ty -> trace) (g : val -> ty -> xout) l t :
  (forall x, In x l -> nets (f x t) (g x t)) -> nets (tenc_all f l t) (xenc_all g l t).
Proof.
  induction l as [|x l IH]; intro H; cbn [tenc_all xenc_all]; [apply nets_puts|].
  apply nets_seq; [apply H; now left|]. apply IH. intros. apply H. now right.
Qed.

Theorem tidy_nets G F F0 o : tidy G F F0 o ->
  forall v t, wt G v t = true -> nets (tenc G F o v t) (xenc G F0 o v t).
Proof.
  intro HT. induction v as [n|l IH| |v IH|i v IH| |l|l] using val_ind'; intros t Hw;
    destruct t as [w isb| |w sg zz| |si ms|k|n' t'|ts|s cg t'|s k t'|dc t'|t'|t'|ik meta alts|n'|k|s t'];
    cbn [wt] in Hw; try discriminate; try (destruct k as [s|nv|]; discriminate);
    cbn [tenc xenc]; try rewrite Forall_forall in IH; try apply nets_puts.
  - apply nets_many. intros x m Hin. apply IH; [eapply in_combine_l; eauto|].
    eapply (forall2b_in (fun x m => wt G x m)); eauto.
  - apply HT; auto.
  - apply andb_true_iff in Hw as [_ Hw]. rewrite forallb_forall in Hw. apply nets_all. auto.
  - apply nets_many. intros x m Hin. apply IH; [eapply in_combine_l; eauto|].
    eapply (forall2b_in (fun x m => wt G x m)); eauto.
  - rewrite forallb_forall in Hw. apply nets_seq; [apply nets_puts|]. apply nets_all. auto.
  - apply andb_true_iff in Hw as [Hw _]. rewrite forallb_forall in Hw.
    apply nets_seq; [apply nets_puts|]. apply nets_all. auto.
  - rewrite forallb_forall in Hw. apply nets_seq; [apply nets_puts|]. apply nets_all. auto.
  - apply nets_seq; [apply nets_puts|]. auto.
  - apply nets_seq; [apply nets_puts|]. auto.
  - auto.
  - destruct (nth_error meta i) as [[id dc]|]; [|apply nets_puts].
    destruct (nth_error alts i) eqn:E; [|apply nets_puts].
    apply nets_seq; [apply nets_puts|]. auto.
Qed.

(** ** Functions that do not move *)

Lemma ssound_still G Q ts p : sound G Q ts p -> ssound G Q ts (still p).
Proof.
  induction p as [|e| |i t k IH|t f k IH|f k IH]; cbn [sound ssound still]; auto.
  - intros (H1 & H2 & H3 & H4). repeat split; auto.
  - intros (H1 & H2 & H3 & H4 & H5). repeat split; auto.
  - intros [H1 H2]. split; auto.
Qed.

Lemma srun_out_still G c (ms : list (ty -> act)) (ms' : list (ty -> act)) self :
  Forall2 (fun a b => forall t st, a t st = b t st) ms ms' ->
  forall p st, srun_out G c ms self (still p) st = run_out G c ms' self p st.
Proof.
  intro H. induction p as [|e| |i t k IH|t f k IH|f k IH]; intro st; cbn [still srun_out run_out]; auto.
  - assert (X : match nth_error ms i, nth_error ms' i with
                | Some a, Some b => forall t st, a t st = b t st | None, None => True | _, _ => False end).
    { clear IH. revert i; induction H; intros [|i]; cbn; auto. apply IHForall2. }
    destruct (nth_error ms i), (nth_error ms' i); try contradiction; [|reflexivity].
    apply seq_ext; auto.
  - apply seq_ext; auto.
Qed.

Theorem sser_still G F c v : forall t st, sser G (fun k => still (F k)) c v t st = cser G F c v t st.
Proof.
  induction v as [n|l IH| |v IH|i v IH| |l|l] using val_ind'; intros t st;
    destruct t as [w isb| |w sg zz| |si ms|k|n' t'|ts|s cg t'|s k t'|dc t'|t'|t'|ik meta alts|n'|k|s t'];
    try reflexivity; cbn [sser cser] in *; try rewrite Forall_forall in IH.
  - destruct (_ && _); [reflexivity|]. destruct (as_bytes _ _); [reflexivity|].
    apply ser_many_ext. intros x m Hin st'. apply IH. eapply in_combine_l; eauto.
  - apply srun_out_still. clear -IH. induction l; cbn [map]; constructor.
    + intros. apply IH. now left.
    + apply IHl. intros. apply IH. now right.
  - destruct (as_bytes _ _); [reflexivity|]. apply ser_all_ext. auto.
  - apply ser_many_ext. intros x m Hin st'. apply IH. eapply in_combine_l; eauto.
  - apply seq_ext; [reflexivity|]. intro st'. destruct (_ && _); [reflexivity|]. apply ser_all_ext. auto.
  - apply seq_ext; [reflexivity|]. apply ser_all_ext. auto.
  - apply seq_ext; [reflexivity|]. intro st'. destruct (as_bytes _ _); [reflexivity|]. apply ser_all_ext. auto.
  - apply seq_ext; [reflexivity|]. auto.
  - apply seq_ext; [reflexivity|]. auto.
  - auto.
  - destruct (nth_error meta i) as [[id dc]|]; [|reflexivity].
    destruct (nth_error alts i) as [t'|]; [|reflexivity].
    apply seq_ext; [reflexivity|]. auto.
Qed.

Lemma nets_still G o (ts : list (ty -> trace)) (es : list (ty -> xout)) tys self :
  object G self tys ->
  (forall i a e t t0, nth_error ts i = Some a -> nth_error es i = Some e -> nth_error tys i = Some t0 ->
     (forall x, wt G x t = wt G x t0) -> nets (a t) (e t)) ->
  length ts = length self -> length es = length self ->
  forall Q p, sound G Q tys p -> nets (tpath G o ts self (still p)) (path G o es self p).
Proof.
  intros Ho H L1 L2 Q. induction p as [|e| |i t k IH|t f k IH|f k IH]; intro Hs;
    cbn [still tpath path sound] in *; try apply nets_puts.
  - destruct Hs as ((t0 & Et & Hx) & _ & _ & Hk).
    destruct (nth_error ts i) as [a|] eqn:E1, (nth_error es i) as [e|] eqn:E2.
    + apply nets_seq; eauto.
    + apply nth_error_None in E2. assert (i < length ts)%nat by (apply nth_error_Some; congruence). lia.
    + apply nth_error_None in E1. assert (i < length es)%nat by (apply nth_error_Some; congruence). lia.
    + apply nets_puts.
  - destruct Hs as (_ & _ & _ & Hf & Hk). apply nets_seq; [apply nets_puts|auto].
  - destruct Hs as [_ Hk]. auto.
Qed.

Lemma cursor_puts e : forall p, cursor (map FPut e) p = (p + length e)%nat.
Proof. unfold cursor. induction e as [|b e IH]; intro p; cbn [map fold_left length]; [lia|]. rewrite IH. lia. Qed.

Lemma tseq_done e T p :
  tseq (puts (lift (pdone e))) T p = (map FPut e ++ fst (T (p + length e)%nat), snd (T (p + length e)%nat)).
Proof. unfold tseq, puts. cbn [lift pdone fst snd]. rewrite cursor_puts. now destruct (T _). Qed.

Lemma tseq_assoc a b c p : tseq a (tseq b c) p = tseq (tseq a b) c p.
Proof.
  unfold tseq. destruct (a p) as [o1 [s|]]; [reflexivity|].
  destruct (b (cursor o1 p)) as [o2 [s|]]; [reflexivity|].
  replace (cursor (o1 ++ o2) p) with (cursor o2 (cursor o1 p)) by (unfold cursor; now rewrite fold_left_app).
  destruct (c _) as [o3 s3]. now rewrite app_assoc.
Qed.

Lemma tpath_andthen G o (ts : list (ty -> trace)) tys self Q q :
  object G self tys -> length ts = length self ->
  forall p, sound G Q tys p ->
  forall pos, tpath G o ts self (andthen (still p) q) pos = tseq (tpath G o ts self (still p)) (tpath G o ts self q) pos.
Proof.
  intros Ho L. induction p as [|e| |i t k IH|t f k IH|f k IH]; intros Hs pos;
    cbn [still andthen tpath sound] in *; try reflexivity.
  - unfold tseq, puts, xnil, cursor. cbn. destruct (tpath G o ts self q pos). reflexivity.
  - destruct Hs as ((t0 & Et & Hx) & _ & _ & Hk).
    destruct (nth_error ts i) as [a|] eqn:E1.
    + rewrite <- tseq_assoc. apply tseq_ext; auto.
    + apply nth_error_None in E1. pose proof (forall2b_length _ _ _ Ho).
      assert (i < length tys)%nat by (apply nth_error_Some; congruence). lia.
  - destruct Hs as (_ & _ & _ & Hf & Hk).
    rewrite <- tseq_assoc. apply tseq_ext; auto.
  - destruct Hs as [_ Hk]. auto.
Qed.

Lemma pwrite_over d p e h r : (p <= length d)%nat -> length h = length e ->
  pwrite (pwrite d p (e ++ r)) p h = pwrite d p (h ++ r).
Proof.
  intros Hp HL. unfold pwrite. rewrite !app_length, HL.
  rewrite firstn_app, firstn_length, Nat.min_l, Nat.sub_diag, firstn_O, app_nil_r by exact Hp.
  rewrite firstn_all2 by (rewrite firstn_length; lia). f_equal. rewrite <- !app_assoc. f_equal.
  rewrite skipn_app, firstn_length, Nat.min_l by exact Hp.
  rewrite skipn_all2 by (rewrite firstn_length; lia). cbn [app].
  replace (p + length e - p)%nat with (length e) by lia.
  rewrite skipn_app, skipn_all, Nat.sub_diag. reflexivity.
Qed.

Section Frames.
  Variables (G : tenv) (o : wfmt) (W : nat -> option nat) (B : nat -> prog) (Q : ty -> Prop).
  Hypothesis (HB : forall k, sound G Q (t_mems G k) (B k)).
  Notation F := (frame_out W B).
  Notation F0 := (frame_wire G o W B).

  Lemma body_nets k l : object G l (t_mems G k) ->
    (forall x t, In x l -> wt G x t = true -> nets (tenc G F o x t) (xenc G F0 o x t)) ->
    nets (tpath G o (map (tenc G F o) l) l (still (B k))) (path G o (map (xenc G F0 o) l) l (B k)).
  Proof.
    intros Ho H. eapply nets_still; [exact Ho| |now rewrite map_length..|apply HB].
    intros i a e t t0 Ha He Ht Hx. rewrite nth_error_map in Ha, He.
    destruct (nth_error l i) as [x|] eqn:Ex; [|discriminate]. cbn in Ha, He. injection Ha as <-. injection He as <-.
    apply H; [now apply nth_error_In in Ex|]. rewrite Hx. eapply nth_object; eauto.
  Qed.

  Theorem frames_tidy : tidy G F F0 o.
  Proof.
    intros k l Ho H. pose proof (body_nets k l Ho H) as HN. unfold frame_out at 2, frame_wire at 2.
    destruct (W k) as [w|] eqn:Ew; [|exact HN].
    set (X := path G o (map (xenc G F0 o) l) l (B k)) in *.
    set (T := tpath G o (map (tenc G F o) l) l (still (B k))) in *.
    intros d p Hp. unfold patched. cbn [tpath path]. fold X.
    set (Z := wscalar o w 0). assert (LZ : length Z = w) by apply wscalar_length.
    change (enc G o (VN 0) (TScalar w false)) with (pdone Z). rewrite tseq_done, LZ.
    rewrite (tpath_andthen _ _ _ (t_mems G k) _ Q) by (auto; now rewrite map_length).
    unfold tseq. fold T. unfold xseq. cbn [lift enc fst snd pdone].
    assert (P1 : (p + w <= length (pwrite d p Z))%nat) by (rewrite pwrite_length by exact Hp; lia).
    destruct (HN (pwrite d p Z) (p + w)%nat P1) as (A1 & A2 & A3).
    destruct (T (p + w)%nat) as [o1 s1] eqn:E1. cbn [fst snd] in *. subst s1.
    destruct (snd X) as [s|] eqn:Es; cbn [fst snd].
    - split; [apply seated_app; rewrite play_puts by exact Hp; rewrite LZ; split; [apply seated_puts|exact A1]|].
      split; [reflexivity|discriminate].
    - specialize (A3 eq_refl).
      pose proof (cursor_play o1 (mkF (pwrite d p Z) (p + w))) as C1. cbn [f_pos] in C1. rewrite A3 in C1.
      cbn [f_pos] in C1. rewrite C1. unfold puts. cbn [tpath fst snd lift enc pdone xnil map app].
      replace (p + w + length (fst X) - (p + w))%nat with (length (fst X)) by lia.
      assert (EL : body_len G o W B k l = length (fst X)).
      { unfold body_len. fold T. destruct (HN [] O ltac:(cbn; lia)) as (_ & _ & N3). specialize (N3 Es).
        pose proof (cursor_play (fst (T O)) (mkF [] O)) as C2. cbn [f_pos] in C2. rewrite C2, N3. cbn [f_pos]. lia. }
      rewrite EL. set (Hd := wscalar o w _). assert (LH : length Hd = w) by apply wscalar_length.
      assert (A4 : play (map FPut Z ++ o1) (mkF d p) = mkF (pwrite d p (Z ++ fst X)) (p + w + length (fst X))).
      { rewrite play_app, play_puts, LZ, A3 by exact Hp. f_equal. rewrite <- LZ. now apply pwrite_app. }
      assert (L2 : (p + w + length (fst X) <= length (pwrite d p (Z ++ fst X)))%nat).
      { rewrite pwrite_length, app_length by exact Hp. lia. }
      assert (HP : play (FSeek p :: map FPut Hd) (mkF (pwrite d p (Z ++ fst X)) (p + w + length (fst X)))
                   = mkF (pwrite d p (Hd ++ fst X)) (p + w)).
      { change (play (map FPut Hd) (mkF (pwrite d p (Z ++ fst X)) p) = mkF (pwrite d p (Hd ++ fst X)) (p + w)).
        rewrite play_puts by lia. rewrite pwrite_over by (auto; lia). now rewrite LH. }
      assert (L3 : (p + w + length (fst X) <= length (pwrite d p (Hd ++ fst X)))%nat).
      { rewrite pwrite_length, app_length by exact Hp. lia. }
      rewrite tseq_done. unfold puts. cbn [fst snd xnil map]. rewrite (app_assoc (map FPut Z) o1).
      change (FSeek p :: map FPut Hd ++ [FSeek (p + w + length (fst X))])
        with ((FSeek p :: map FPut Hd) ++ [FSeek (p + w + length (fst X))]).
      split; [|split; [reflexivity|intros _]].
      + apply seated_app. split.
        * apply seated_app. rewrite play_puts, LZ by exact Hp. split; [apply seated_puts|exact A1].
        * rewrite A4. apply seated_app. rewrite HP. split; cbn [seated fdo f_data]; split; auto.
          -- lia.
          -- apply seated_puts.
      + rewrite play_app, A4, play_app, HP. cbn. f_equal. rewrite app_length. lia.
  Qed.

  (** The length in front is that of the body. *)
  Theorem frame_length k l : object G l (t_mems G k) ->
    snd (path G o (map (xenc G F0 o) l) l (B k)) = None ->
    body_len G o W B k l = length (fst (path G o (map (xenc G F0 o) l) l (B k))).
  Proof.
    intros Ho Hn. destruct (body_nets k l Ho) with (d := @nil byte) (p := O) as (_ & _ & N3); [|cbn; lia|].
    { intros. apply tidy_nets; auto. apply frames_tidy. }
    specialize (N3 Hn). unfold body_len.
    match goal with |- cursor (fst (?T O)) O = _ => pose proof (cursor_play (fst (T O)) (mkF [] O)) as C2 end.
    cbn [f_pos] in C2. rewrite C2, N3. reflexivity.
  Qed.
End Frames.

Lemma ssound_andthen G Q ts q : ssound G Q ts q -> forall p, ssound G Q ts p -> ssound G Q ts (andthen p q).
Proof.
  intros Hq. induction p as [|e| |i t k IH|t f k IH|f k IH|k IH|n k IH|k IH]; cbn [ssound andthen]; auto.
  - intros (H1 & H2 & H3 & H4). repeat split; auto.
  - intros (H1 & H2 & H3 & H4 & H5). repeat split; auto.
  - intros [H1 H2]. split; auto.
Qed.

Lemma hdr_ok w n : n mod pow256 w <? pow256 w = true.
Proof. apply N.ltb_lt, N.mod_lt. pose proof (pow256_pos w). lia. Qed.

Lemma frame_out_sound G (Q : ty -> Prop) W B :
  (forall k, sound G Q (t_mems G k) (B k)) ->
  (forall k w, W k = Some w -> (0 < w)%nat /\ Q (TScalar w false)) ->
  forall k, ssound G Q (t_mems G k) (frame_out W B k).
Proof.
  intros HB HW k. unfold frame_out. destruct (W k) as [w|] eqn:Ew; [|now apply ssound_still].
  destruct (HW k w Ew) as [H1 H2]. unfold patched. cbn [ssound]. intros a.
  assert (Hw : wf G (TScalar w false) = true) by (cbn [wf negb orb]; rewrite andb_true_r; now apply Nat.ltb_lt).
  split; [exact Hw|]. split; [reflexivity|]. split; [exact H2|]. split.
  { intros. cbn [wt]. apply N.ltb_lt. pose proof (pow256_pos w). lia. }
  intros _ self _ Ho. apply ssound_andthen; [|now apply ssound_still].
  cbn [ssound]. intro b. split; [exact Hw|]. split; [reflexivity|]. split; [exact H2|].
  split; [|auto]. intros. cbn [wt]. apply hdr_ok.
Qed.

Lemma frame_wire_sound G o (Q : ty -> Prop) W B :
  (forall k, sound G Q (t_mems G k) (B k)) ->
  (forall k w, W k = Some w -> (0 < w)%nat /\ Q (TScalar w false)) ->
  forall k, sound G Q (t_mems G k) (frame_wire G o W B k).
Proof.
  intros HB HW k. unfold frame_wire. destruct (W k) as [w|] eqn:Ew; [|auto].
  destruct (HW k w Ew) as [H1 H2]. cbn [sound].
  split; [cbn [wf negb orb]; rewrite andb_true_r; now apply Nat.ltb_lt|]. split; [reflexivity|]. split; [exact H2|].
  split; [|auto]. intros. cbn [wt]. apply hdr_ok.
Qed.

Lemma frame_back_sound G (Q : ty -> Prop) W B :
  (forall k, sound G Q (t_mems G k) (B k)) ->
  (forall k w, W k = Some w -> (0 < w)%nat /\ Q (TScalar w false)) ->
  forall k, sound G Q (t_mems G k) (frame_back W B k).
Proof.
  intros HB HW k. unfold frame_back. destruct (W k) as [w|] eqn:Ew; [|auto].
  destruct (HW k w Ew) as [H1 H2]. cbn [sound].
  split; [cbn [wf negb orb]; rewrite andb_true_r; now apply Nat.ltb_lt|]. split; [reflexivity|]. split; [exact H2|].
  split; [|auto]. intros. cbn [wt]. apply N.ltb_lt. pose proof (pow256_pos w). lia.
Qed.

Lemma frame_in_sound G (Q : ty -> Prop) W B :
  (forall k, sound G Q (t_mems G k) (B k)) ->
  (forall k w, W k = Some w -> (0 < w)%nat /\ Q (TScalar w false)) ->
  forall k, ssound G Q (t_mems G k) (frame_in W B k).
Proof.
  intros HB HW k. unfold frame_in. destruct (W k) as [w|] eqn:Ew; [|now apply ssound_still].
  destruct (HW k w Ew) as [H1 H2]. unfold framed. cbn [ssound].
  split; [cbn [wf negb orb]; rewrite andb_true_r; now apply Nat.ltb_lt|]. split; [reflexivity|]. split; [exact H2|].
  split. { intros. cbn [wt]. apply N.ltb_lt. pose proof (pow256_pos w). lia. }
  intros x self Hx Ho a n. cbv zeta. destruct (_ <=? n)%nat; [|exact I].
  apply ssound_andthen; [exact I|]. now apply ssound_still.
Qed.
