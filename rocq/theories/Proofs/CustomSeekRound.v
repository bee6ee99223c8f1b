(** Readers of frames. *)

From Coq Require Import List NArith ZArith Lia Bool Arith.
From Coq Require Import ZifyBool ZifyNat ZifyN.
From Verif Require Import Base.Bytes Model.Types Model.Machine Model.Varint Model.Out Model.In Model.Pb
  Model.Custom Model.CustomSeek Spec.Leb128 Spec.Wire Spec.CustomWire Spec.CustomFile Proofs.VarintP
  Proofs.OutP Proofs.InBase Proofs.InSafe Proofs.InLocal Proofs.InRound Proofs.CustomP Proofs.CustomIn
  Proofs.CustomRound Proofs.CustomSeekOut Proofs.CustomSeekTidy Proofs.CustomSeekIn.
Import ListNotations.
Local Open Scope N_scope.

(** ** Readers of named classes that agree *)

Section Ext.
  Variables (G : tenv) (c : cfg) (data : list byte).

  Lemma rd_many_ext (f g : ty -> val -> nat -> dres) ms :
    Forall (fun m => forall x p, f m x p = g m x p) ms ->
    forall l pos, des_many f ms l pos = des_many g ms l pos.
  Proof.
    induction 1 as [|m ms Hm _ IH]; intros l pos; cbn [des_many]; [reflexivity|].
    rewrite Hm. destruct (g m _ pos) as [[[] v] p]; try reflexivity. now rewrite IH.
  Qed.

  Lemma rd_all_ext (f g : val -> nat -> dres) l : (forall x p, f x p = g x p) ->
    forall pos, des_all f l pos = des_all g l pos.
  Proof.
    intro H. induction l as [|x l IH]; intro pos; cbn [des_all]; [reflexivity|].
    rewrite H. destruct (g x pos) as [[[] v] p]; try reflexivity. now rewrite IH.
  Qed.

  Lemma rd_assoc_ext (f g : val -> nat -> dres) ins d n : (forall x p, f x p = g x p) ->
    forall acc pos, des_assoc f ins d n acc pos = des_assoc g ins d n acc pos.
  Proof.
    intro H. induction n as [|n IH]; intros acc pos; cbn [des_assoc]; [reflexivity|].
    rewrite H. destruct (g d pos) as [[[] v] p]; try reflexivity. now rewrite IH.
  Qed.

  Lemma rd_elems_ext b (f g : val -> nat -> dres) t l pos : (forall x p, f x p = g x p) ->
    des_elems c data b f t l pos = des_elems c data b g t l pos.
  Proof. intro H. unfold des_elems. f_equal. destruct b; [reflexivity|]. now apply rd_all_ext. Qed.

  Variables rec rec' : nat -> val -> nat -> dres.
  Hypothesis Hrec : forall k x p, rec' k x p = rec k x p.

  Lemma des_ty_ext t : forall x p, des_ty G c data rec' t x p = des_ty G c data rec t x p.
  Proof.
    induction t using ty_ind'; intros x p; try reflexivity.
    - cbn [des_ty]. destruct (_ && _); [reflexivity|]. destruct (as_bytes _ _); [reflexivity|].
      f_equal. now apply rd_many_ext.
    - cbn [des_ty]. apply Hrec.
    - cbn [des_ty]. apply rd_elems_ext. exact IHt.
    - cbn [des_ty]. f_equal. now apply rd_many_ext.
    - cbn [des_ty]. destruct (sz_of c s) as [|w|w]; [apply rd_elems_ext; exact IHt|..];
      (destruct (des_size c data _ p) as [[[] n] q]; try reflexivity;
       destruct (vec_resize G c t n (as_seq x)) as [[] l]; try reflexivity;
       apply rd_elems_ext; exact IHt).
    - cbn [des_ty]. destruct (sz_of c s) as [|w|w]; [f_equal; apply rd_assoc_ext; exact IHt|..];
      (destruct (des_size c data _ p) as [[[] n] q]; try reflexivity;
       f_equal; apply rd_assoc_ext; exact IHt).
    - cbn [des_ty]. destruct (des_flag c data p) as [[[] n] q]; try reflexivity. destruct n; [reflexivity|].
      unfold des_inplace. now rewrite !IHt.
    - cbn [des_ty]. destruct (des_flag c data p) as [[[] n] q]; try reflexivity. destruct n; [reflexivity|].
      unfold des_ptr. now rewrite !IHt.
    - cbn [des_ty]. unfold des_ptr. now rewrite !IHt.
    - rewrite !des_variant_eq. destruct (des_id c data ik p) as [[[] n] q]; try reflexivity.
      destruct (find_id meta n) as [i|]; [|reflexivity].
      destruct (nth_error alts i) as [t'|] eqn:Ea; [|reflexivity].
      rewrite Forall_forall in H. specialize (H t' (nth_error_In _ _ Ea)).
      unfold des_inplace. now rewrite !H.
    - cbn [des_ty]. destruct (sz_of c s) as [|w|w]; [apply rd_elems_ext; exact IHt|..];
      (destruct (des_size c data _ p) as [[[] n] q]; try reflexivity;
       destruct (_ <? _); [reflexivity|]; apply rd_elems_ext; exact IHt).
  Qed.
End Ext.

Lemma run_in_ext rd rd' loc p :
  (forall t x pos, rd t x pos = rd' t x pos) ->
  forall self pos, run_in rd loc p self pos = run_in rd' loc p self pos.
Proof.
  intro H. induction p as [|e| |i t k IH|t f k IH|f k IH]; intros self pos; cbn [run_in]; auto.
  - destruct (nth_error self i) as [x|]; auto. rewrite H. destruct (rd' t x pos) as [[[] y] p']; auto.
  - destruct (loc t (f self) pos) as [[[] y] p']; auto.
Qed.

Theorem sdes_still G F c data fuel t prior pos :
  sdes G (fun k => still (F k)) c data fuel t prior pos = cdes G F c data fuel t prior pos.
Proof.
  unfold sdes, cdes. apply des_ty_ext. clear t prior pos.
  induction fuel as [|f IH]; intros k x p; cbn [sdes_rec cdes_rec]; [reflexivity|].
  f_equal. rewrite srun_in_still. apply run_in_ext. intros t y q. now apply des_ty_ext.
Qed.

(** ** Frames *)

Lemma srun_in_andthen left rd loc q p : forall self pos,
  srun_in left rd loc (andthen (still p) q) self pos
  = match run_in rd loc p self pos with (ROk, l, pos') => srun_in left rd loc q l pos' | other => other end.
Proof.
  induction p as [|e| |i t k IH|t f k IH|f k IH]; intros self pos; cbn [still andthen srun_in run_in]; auto.
  - destruct (nth_error self i) as [x|]; auto. destruct (rd t x pos) as [[[] y] p']; auto.
  - destruct (loc t (f self) pos) as [[[] y] p']; auto.
Qed.

Lemma within_still G n ts p : forall pos, within G n ts pos (still p).
Proof. induction p; intro pos; cbn [within still]; auto. Qed.

Lemma within_andthen G n ts q p : (forall pos, (pos <= n)%nat -> within G n ts pos q) ->
  forall pos, (pos <= n)%nat -> within G n ts pos (andthen (still p) q).
Proof. intro H. induction p; intros pos Hp; cbn [within andthen still]; auto. Qed.

(** Frame readers stay inside, whatever the length says. *)
Lemma frame_in_within G W B n k pos : (pos <= n)%nat -> within G n (t_mems G k) pos (frame_in W B k).
Proof.
  intro Hp. unfold frame_in. destruct (W k) as [w|]; [|apply within_still].
  unfold framed. cbn [within]. intros x self q Hx Ho Hq. cbv zeta.
  destruct (Nat.leb_spec (match x with VN n => N.to_nat n | _ => O end) (n - q)%nat); [|exact I].
  apply within_andthen; [|exact Hq]. intros pos' Hp'. cbn [within]. split; [lia|exact I].
Qed.

Lemma path_pthen G o (es : list (ty -> xout)) tys self Q q :
  object G self tys -> length es = length self ->
  forall p, sound G Q tys p ->
  path G o es self (pthen p q) = xseq (path G o es self p) (path G o es self q).
Proof.
  assert (A : forall a b c, xseq a (xseq b c) = xseq (xseq a b) c).
  { intros [a [u|]] [b [v|]] [d z]; unfold xseq; cbn [fst snd]; auto. now rewrite app_assoc. }
  intros Ho L. induction p as [|e| |i t k IH|t f k IH|f k IH]; intro Hs; cbn [pthen path sound] in *; try reflexivity.
  - unfold xseq, xnil. cbn. now destruct (path _ _ _ _ q).
  - destruct Hs as ((t0 & Et & Hx) & _ & _ & Hk).
    destruct (nth_error es i) as [a|] eqn:E1.
    + now rewrite IH, A by auto.
    + apply nth_error_None in E1. pose proof (forall2b_length _ _ _ Ho).
      assert (i < length tys)%nat by (apply nth_error_Some; congruence). lia.
  - destruct Hs as (_ & _ & _ & Hf & Hk). now rewrite IH, A by auto.
  - destruct Hs as [_ Hk]. auto.
Qed.

Section FrameRound.
  Variables (G : tenv) (W : nat -> option nat) (B B' : nat -> prog) (c : cfg) (data : list byte).
  Hypothesis (HG : wf_env G) (Hds : wfsz (Some (dsize c)) = true) (Hsm : small data).
  Hypothesis (HB : forall k, sound G plain_item (t_mems G k) (B k)).
  Hypothesis (HB' : forall k, sound G plain_item (t_mems G k) (B' k)).
  Hypothesis (HW : forall k w, W k = Some w -> (0 < w)%nat /\ N.of_nat (length data) < pow256 w).
  Notation o := (fmt_of c).
  Notation F0 := (frame_wire G o W B).
  Notation F' := (frame_back W B').
  Notation xenc := (xenc G F0 o).
  Notation has := (has_at data).

  (** The header, and what the reader does after it. *)
  Lemma frame_head w k l cur pos left rd q :
    W k = Some w -> object G l (t_mems G k) -> snd (path G o (map xenc l) l (B k)) = None ->
    (w + length (fst (path G o (map xenc l) l (B k))) + pos <= length data)%nat ->
    left = (fun q => N.to_nat (remaining data q)) ->
    has pos (wscalar o w (N.of_nat (body_len G o W B k l) mod pow256 w)) ->
    srun_in left rd (des_ty G c data no_rec) (framed w q) cur pos
    = srun_in left rd (des_ty G c data no_rec)
        (andthen q (MMove (pos + w + length (fst (path G o (map xenc l) l (B k)))) MRet)) cur (pos + w).
  Proof.
    intros Ew Ho Hs HL -> Hh. destruct (HW k w Ew) as [Hw Hp].
    rewrite (frame_length G o W B plain_item HB k l Ho Hs) in Hh.
    set (n := length (fst (path G o (map xenc l) l (B k)))) in *.
    rewrite N.mod_small in Hh by lia.
    unfold framed. cbn [srun_in].
    pose proof (des_ty_xround G (fun _ => PRet) (fun _ => PRet) c data HG Hds Hsm no_rec O false) as R.
    specialize (R ltac:(discriminate) (VN (N.of_nat n)) (TScalar w false) (VN 0) pos).
    cbn [CustomWire.xenc lift enc pdone fst snd] in R.
    rewrite wscalar_length in R. rewrite R.
    - cbn [srun_in]. rewrite remaining_small by (auto; lia). rewrite !Nat2N.id.
      destruct (Nat.leb_spec n (length data - (pos + w))); [reflexivity|lia].
    - cbn [wf negb orb]. rewrite andb_true_r. now apply Nat.ltb_lt.
    - reflexivity.
    - reflexivity.
    - reflexivity.
    - cbn [wt]. apply N.ltb_lt. lia.
    - reflexivity.
    - exact I.
    - discriminate.
    - cbn [wt]. apply N.ltb_lt. lia.
    - exact Hh.
  Qed.

  Lemma HWq : forall k w, W k = Some w -> (0 < w)%nat /\ plain_item (TScalar w false).
  Proof. intros k w E. split; [now apply (HW k w E)|reflexivity]. Qed.

  Lemma frame_wire_some w k : W k = Some w ->
    F0 k = PLoc (TScalar w false) (fun self => VN (N.of_nat (body_len G o W B k self) mod pow256 w)) (fun _ _ => B k).
  Proof. intro E. unfold frame_wire at 1. now rewrite E. Qed.
  Lemma frame_wire_none k : W k = None -> F0 k = B k.
  Proof. intro E. unfold frame_wire at 1. now rewrite E. Qed.
  Lemma frame_back_some w k : W k = Some w -> F' k = PLoc (TScalar w false) (fun _ => VN 0) (fun _ _ => B' k).
  Proof. intro E. unfold frame_back. now rewrite E. Qed.
  Lemma frame_back_none k : W k = None -> F' k = B' k.
  Proof. intro E. unfold frame_back. now rewrite E. Qed.
  Lemma frame_in_some w k : W k = Some w -> frame_in W B' k = framed w (still (B' k)).
  Proof. intro E. unfold frame_in. now rewrite E. Qed.
  Lemma frame_in_none k : W k = None -> frame_in W B' k = still (B' k).
  Proof. intro E. unfold frame_in. now rewrite E. Qed.

  Lemma frame_rec_round fuel : forall k v prior pos,
    (height v <= fuel)%nat -> wt G v (TRec k) = true -> snd (xenc v (TRec k)) = None ->
    xreadable G F0 F' c v (TRec k) -> wt G prior (TRec k) = true -> has pos (fst (xenc v (TRec k))) ->
    sdes_rec G (frame_in W B') c data fuel k prior pos = (ROk, v, (pos + length (fst (xenc v (TRec k))))%nat).
  Proof.
    induction fuel as [|n IH]; intros k v prior pos Hh Hv Hs Hr Hp H.
    { destruct v; cbn in Hh; lia. }
    destruct v as [|l| | | | | |]; try discriminate. destruct prior as [|pl| | | | | |]; try discriminate.
    cbn [sdes_rec as_seq xreadable wt CustomWire.xenc] in *. specialize (Hr pl Hp).
    assert (Hhl : forall x, In x l -> (height x <= n)%nat).
    { intros x Hin. pose proof (height_in _ _ Hin). lia. }
    pose proof (run_in_round G F0 F' c data HG Hds Hsm _ n (t_mems G k) l IH Hv Hhl) as R.
    destruct (W k) as [w|] eqn:Ew.
    - rewrite (frame_wire_some w k Ew), (frame_back_some w k Ew) in *. rewrite (frame_in_some w k Ew).
      inversion Hr as [| |t f f' k1 k2 cur res R1 M E1 E2 E3 E4| |]; subst.
      cbn [path] in Hs, H |- *.
      apply xseq_ok in Hs as (S1 & S2 & S3). rewrite S3 in H |- *. clear S3.
      apply has_at_app in H as [H1 H2]. cbn [lift enc pdone fst] in H1, H2 |- *. rewrite wscalar_length in H2.
      rewrite (frame_head w k l pl pos _ _ _ Ew Hv S2); [|destruct H2; lia|reflexivity|exact H1].
      rewrite srun_in_andthen.
      rewrite (R (B k) (B' k) pl l M (pos + w)%nat (HB k) (HB' k) Hp S2 H2).
      cbn [srun_in seq_res]. rewrite app_length, wscalar_length. f_equal. lia.
    - rewrite (frame_wire_none k Ew), (frame_back_none k Ew) in *. rewrite (frame_in_none k Ew).
      rewrite srun_in_still. now rewrite (R (B k) (B' k) pl l Hr pos (HB k) (HB' k) Hp Hs H).
  Qed.

  Theorem frame_round v t fuel prior pos :
    wf G t = true -> plain t = true -> tall (rt_ok c) t = true ->
    wt G v t = true -> snd (xenc v t) = None -> xreadable G F0 F' c v t ->
    (height v <= fuel)%nat -> wt G prior t = true -> has pos (fst (xenc v t)) ->
    sdes G (frame_in W B') c data fuel t prior pos = (ROk, v, (pos + length (fst (xenc v t)))%nat).
  Proof.
    intros. unfold sdes. apply (des_ty_xround G F0 F' c data HG Hds Hsm _ fuel true); auto.
    - intros _. apply frame_rec_round.
    - apply tall_true. reflexivity.
  Qed.

  (** A reader that knows only the first part of a frame. *)
  Theorem frame_skip k w P E l pl res fuel pos :
    W k = Some w -> B k = pthen P E -> sound G plain_item (t_mems G k) P ->
    wt G (VSeq l) (TRec k) = true -> wt G (VSeq pl) (TRec k) = true -> (height (VSeq l) <= fuel)%nat ->
    snd (xenc (VSeq l) (TRec k)) = None -> has pos (fst (xenc (VSeq l) (TRec k))) ->
    mirrors (loc_back G c) (map (mem_back G F0 F' c) l) l P (B' k) pl res ->
    sdes G (frame_in W B') c data fuel (TRec k) (VSeq pl) pos
    = (ROk, VSeq res, (pos + length (fst (xenc (VSeq l) (TRec k))))%nat).
  Proof.
    intros Ew EB HP Hv Hp Hh Hs H M. unfold sdes. destruct fuel as [|n]; [cbn in Hh; lia|].
    cbn [des_ty sdes_rec as_seq wt CustomWire.xenc] in *.
    assert (Hhl : forall x, In x l -> (height x <= n)%nat).
    { intros x Hin. pose proof (height_in _ _ Hin). lia. }
    pose proof (run_in_round G F0 F' c data HG Hds Hsm _ n (t_mems G k) l (frame_rec_round n) Hv Hhl) as R.
    rewrite (frame_wire_some w k Ew) in *. rewrite (frame_in_some w k Ew). cbn [path] in Hs, H |- *.
    apply xseq_ok in Hs as (S1 & S2 & S3). rewrite S3 in H |- *. clear S3.
    apply has_at_app in H as [H1 H2]. cbn [lift enc pdone fst] in H1, H2 |- *. rewrite wscalar_length in H2.
    rewrite (frame_head w k l pl pos _ _ _ Ew Hv S2); [|destruct H2; lia|reflexivity|exact H1].
    rewrite srun_in_andthen.
    assert (EP : path G o (map xenc l) l (B k) = xseq (path G o (map xenc l) l P) (path G o (map xenc l) l E)).
    { rewrite EB. apply path_pthen with (tys := t_mems G k) (Q := plain_item); auto. now rewrite map_length. }
    rewrite EP in S2, H2. apply xseq_ok in S2 as (T1 & T2 & T3). rewrite T3 in H2. apply has_at_app in H2 as [H2 _].
    rewrite (R P (B' k) pl res M (pos + w)%nat HP (HB' k) Hp T1 H2).
    cbn [srun_in seq_res]. rewrite app_length, wscalar_length. f_equal. lia.
  Qed.
End FrameRound.
