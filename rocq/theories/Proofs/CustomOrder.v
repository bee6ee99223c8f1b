(** Functions that transfer all members in order, and functions that decide on what they have
    transferred. *)

From Coq Require Import List NArith ZArith Lia Bool Arith.
From Coq Require Import ZifyBool ZifyNat ZifyN.
From Verif Require Import Base.Bytes Model.Types Model.Machine Model.Varint Model.Out Model.In Model.Pb
  Model.Custom Spec.Leb128 Spec.Wire Spec.CustomWire Proofs.VarintP Proofs.OutP Proofs.InBase
  Proofs.InSafe Proofs.InLocal Proofs.InPrior Proofs.InRound Proofs.PbIn Proofs.CustomP Proofs.CustomIn
  Proofs.CustomRound.
Import ListNotations.
Local Open Scope N_scope.

Lemma seq_ext a a' b b' st : (forall st, a st = a' st) -> (forall st, b st = b' st) -> (a ;; b) st = (a' ;; b') st.
Proof. intros H1 H2. unfold seq. rewrite H1. destruct (a' st) as [[] ?]; auto. Qed.

Lemma ser_many_ext f g l ms :
  (forall x m, In (x, m) (combine l ms) -> forall st, f x m st = g x m st) ->
  forall st, ser_many f l ms st = ser_many g l ms st.
Proof.
  revert ms; induction l as [|x l IH]; intros [|m ms] H st; try reflexivity. cbn [ser_many].
  apply seq_ext; [apply H; now left|]. apply IH. intros. apply H. now right.
Qed.

Lemma ser_all_ext f g l t :
  (forall x, In x l -> forall st, f x t st = g x t st) ->
  forall st, ser_all f l t st = ser_all g l t st.
Proof.
  induction l as [|x l IH]; intros H st; try reflexivity. cbn [ser_all].
  apply seq_ext; [apply H; now left|]. apply IH. intros. apply H. now right.
Qed.

Lemma run_out_in_order G c f self : forall ts pre l,
  self = pre ++ l -> length l = length ts ->
  forall st, run_out G c (map f self) self (in_order (length pre) ts) st = ser_many f l ts st.
Proof.
  induction ts as [|t ts IH]; intros pre [|x l] E HL st; try discriminate; cbn [in_order run_out ser_many].
  - reflexivity.
  - assert (Ex : nth_error self (length pre) = Some x).
    { rewrite E, nth_error_app2, Nat.sub_diag by lia. reflexivity. }
    rewrite nth_error_map, Ex. cbn [option_map].
    apply seq_ext; [reflexivity|]. intro st'.
    specialize (IH (pre ++ [x]) l). rewrite <- app_assoc, app_length in IH. cbn [app length] in IH.
    rewrite Nat.add_1_r in IH. apply IH; auto.
Qed.

Theorem cser_in_order G F c :
  (forall k, F k = in_order 0 (t_mems G k)) ->
  forall v t, wt G v t = true -> forall st, cser G F c v t st = ser G c v t st.
Proof.
  intro HF. induction v as [n|l IH| |v IH|i v IH| |l|l] using val_ind'; intros t Hw st;
    destruct t as [w isb| |w sg zz| |si ms|k|n' t'|ts|s cg t'|s k t'|dc t'|t'|t'|ik meta alts|n'|k|s t'];
    cbn [wt] in Hw; try discriminate; try reflexivity; try (destruct k as [s|nv|]; discriminate);
    cbn [cser ser].
  - destruct (_ && _); [reflexivity|]. destruct (as_bytes _ _); [reflexivity|].
    apply ser_many_ext. intros x m Hin. rewrite Forall_forall in IH. apply IH.
    + eapply in_combine_l; eauto.
    + eapply (forall2b_in (fun x m => wt G x m)); eauto.
  - rewrite HF. rewrite (run_out_in_order G c (cser G F c) l (t_mems G k) [] l) by
      (try reflexivity; eapply forall2b_length; eauto).
    apply ser_many_ext. intros x m Hin. rewrite Forall_forall in IH. apply IH.
    + eapply in_combine_l; eauto.
    + eapply (forall2b_in (fun x m => wt G x m)); eauto.
  - apply andb_true_iff in Hw as [_ Hw]. rewrite forallb_forall in Hw. rewrite Forall_forall in IH.
    destruct (as_bytes _ _); [reflexivity|]. apply ser_all_ext. auto.
  - apply ser_many_ext. intros x m Hin. rewrite Forall_forall in IH. apply IH.
    + eapply in_combine_l; eauto.
    + eapply (forall2b_in (fun x m => wt G x m)); eauto.
  - rewrite forallb_forall in Hw. rewrite Forall_forall in IH.
    apply seq_ext; [reflexivity|]. intro st'. destruct (_ && _); [reflexivity|]. apply ser_all_ext. auto.
  - apply andb_true_iff in Hw as [Hw _]. rewrite forallb_forall in Hw. rewrite Forall_forall in IH.
    apply seq_ext; [reflexivity|]. apply ser_all_ext. auto.
  - rewrite forallb_forall in Hw. rewrite Forall_forall in IH.
    apply seq_ext; [reflexivity|]. intro st'. destruct (as_bytes _ _); [reflexivity|]. apply ser_all_ext. auto.
  - apply seq_ext; [reflexivity|]. auto.
  - apply seq_ext; [reflexivity|]. auto.
  - auto.
  - destruct (nth_error meta i) as [[id dc]|]; [|reflexivity].
    destruct (nth_error alts i) as [t'|]; [|reflexivity].
    apply seq_ext; [reflexivity|]. auto.
Qed.

Lemma set_nth_app {A} (pre : list A) x y l : set_nth (length pre) y (pre ++ x :: l) = pre ++ y :: l.
Proof. induction pre as [|z pre IH]; cbn; [reflexivity|]. now rewrite IH. Qed.

Lemma run_in_in_order rd loc : forall ts pre l pos,
  length l = length ts ->
  run_in rd loc (in_order (length pre) ts) (pre ++ l) pos
  = match des_many rd ts l pos with (r, l', p) => (r, pre ++ l', p) end.
Proof.
  induction ts as [|t ts IH]; intros pre [|x l] pos HL; try discriminate; cbn [in_order run_in des_many].
  - reflexivity.
  - rewrite nth_error_app2, Nat.sub_diag by lia. cbn [nth_error tl].
    destruct (rd t x pos) as [[r y] p]. rewrite set_nth_app.
    destruct r; try reflexivity.
    specialize (IH (pre ++ [y]) l p). rewrite <- app_assoc, app_length in IH. cbn [app length] in IH.
    rewrite Nat.add_1_r in IH. rewrite IH by auto.
    destruct (des_many rd ts l p) as [[r l'] q]. now rewrite <- app_assoc.
Qed.

(** Readers of named classes that agree on valid targets. *)
Section Ext.
  Variables (G : tenv) (c : cfg) (data : list byte).
  Hypothesis (HG : wf_env G).
  Definition eqf (t : ty) (f f' : val -> nat -> dres) : Prop :=
    forall prior pos, wt G prior t = true -> f prior pos = f' prior pos.

  Lemma des_many_eq f f' ms :
    Forall (fun m => eqf m (f m) (f' m)) ms ->
    forall priors pos, forall2b (fun x m => wt G x m) priors ms = true ->
      des_many f ms priors pos = des_many f' ms priors pos.
  Proof.
    induction 1 as [|m ms HE _ IH]; intros priors pos Hw; cbn [des_many]; [reflexivity|].
    destruct priors as [|x priors]; [discriminate|]. cbn [forall2b tl] in *.
    apply andb_true_iff in Hw as [Hx Hw]. rewrite (HE x pos Hx).
    destruct (f' m x pos) as [[[] v] p]; try reflexivity. now rewrite IH.
  Qed.

  Lemma des_all_eq f f' t :
    eqf t f f' -> forall l pos, forallb (fun x => wt G x t) l = true -> des_all f l pos = des_all f' l pos.
  Proof.
    intro HE. induction l as [|x l IH]; intros pos Hw; cbn [des_all]; [reflexivity|].
    cbn [forallb] in Hw. apply andb_true_iff in Hw as [Hx Hw]. rewrite (HE x pos Hx).
    destruct (f' x pos) as [[[] v] p]; try reflexivity. now rewrite IH.
  Qed.

  Lemma des_assoc_eq f f' t ins d :
    eqf t f f' -> wt G d t = true -> forall n acc pos, des_assoc f ins d n acc pos = des_assoc f' ins d n acc pos.
  Proof.
    intros HE Hd. induction n as [|n IH]; intros acc pos; cbn [des_assoc]; [reflexivity|].
    rewrite (HE d pos Hd). destruct (f' d pos) as [[[] v] p]; auto.
  Qed.

  Lemma des_elems_eq b f f' t l pos :
    eqf t f f' -> forallb (fun x => wt G x t) l = true ->
    des_elems c data b f t l pos = des_elems c data b f' t l pos.
  Proof. intros HE Hl. unfold des_elems. destruct b; [reflexivity|]. now rewrite (des_all_eq f f' t). Qed.

  Lemma des_inplace_eq dc f f' wrap cur d prior pos t :
    eqf t f f' -> wt G d t = true -> (forall x, cur = Some x -> wt G x t = true) ->
    des_inplace dc f wrap cur d prior pos = des_inplace dc f' wrap cur d prior pos.
  Proof.
    intros HE Hd Hc. unfold des_inplace. destruct dc; [|now rewrite HE].
    rewrite HE; [reflexivity|]. destruct cur; auto.
  Qed.

  Lemma des_ptr_eq f f' d prior pos t :
    eqf t f f' -> wt G d t = true -> des_ptr f d prior pos = des_ptr f' d prior pos.
  Proof. intros HE Hd. unfold des_ptr. now rewrite HE. Qed.

  Variables rec rec' : nat -> val -> nat -> dres.
  Hypothesis Hrec : forall k, eqf (TRec k) (rec k) (rec' k).

  Lemma des_ty_eq t : wf G t = true -> eqf t (des_ty G c data rec t) (des_ty G c data rec' t).
  Proof.
    induction t using ty_ind'; intros Hw prior pos Hpr; try reflexivity.
    - (* struct *)
      cbn [des_ty]. destruct (_ && _); [reflexivity|]. destruct (as_bytes _ _); [reflexivity|].
      destruct prior; try discriminate. cbn [as_seq wt] in *.
      cbn [wf] in Hw. rewrite !andb_true_iff in Hw. destruct Hw as [[_ Hw] _].
      f_equal. apply des_many_eq; auto.
      rewrite forallb_forall in *. rewrite Forall_forall in *. intros m Hin. apply H; auto.
    - (* named class *) cbn [des_ty]. now apply Hrec.
    - (* array *)
      destruct prior; try discriminate. cbn [wt] in Hpr. apply andb_true_iff in Hpr as [Hn Hpr].
      cbn [des_ty as_seq]. cbn [wf] in Hw. apply andb_true_iff in Hw as [_ Hw].
      apply des_elems_eq; auto.
    - (* tuple *)
      destruct prior; try discriminate. cbn [wt] in Hpr. cbn [des_ty as_seq]. cbn [wf] in Hw.
      f_equal. apply des_many_eq; auto.
      rewrite forallb_forall in *. rewrite Forall_forall in *. intros m Hin. apply H; auto.
    - (* vec *)
      destruct prior; try discriminate. cbn [wt] in Hpr. cbn [des_ty as_seq].
      cbn [wf] in Hw. apply andb_true_iff in Hw as [Hs Hw].
      assert (E : forall n p, match vec_resize G c t n l with
                | (ROk, l) => des_elems c data (as_bytes c t && cg) (des_ty G c data rec t) t l p
                | (r, l) => (r, VSeq l, p)
                end = match vec_resize G c t n l with
                | (ROk, l) => des_elems c data (as_bytes c t && cg) (des_ty G c data rec' t) t l p
                | (r, l) => (r, VSeq l, p)
                end).
      { intros n p. destruct (vec_resize G c t n l) as [r l'] eqn:Ev.
        pose proof (vec_resize_wt G c true true HG t n l r l' Hw Hpr Ev) as (V1 & V2 & V3).
        destruct r; try reflexivity. apply des_elems_eq; auto. }
      destruct (sz_of c s); [now apply des_elems_eq; auto|..];
        (destruct (des_size _ _ _ _) as [[[] n] p]; try reflexivity; apply E).
    - (* assoc *)
      cbn [des_ty]. cbn [wf] in Hw. apply andb_true_iff in Hw as [Hs Hw].
      destruct (match sz_of c s with SzNone => _ | _ => _ end) as [[[] n] p]; try reflexivity.
      f_equal. apply (des_assoc_eq _ _ t); auto. now apply wt_dflt.
    - (* opt *)
      cbn [des_ty wf] in *. destruct (des_flag _ _ _) as [[[] n] p]; try reflexivity.
      destruct n; [reflexivity|]. apply des_inplace_eq with (t := t); auto; [now apply wt_dflt|].
      intros x Hx. destruct prior; try discriminate. injection Hx as <-. exact Hpr.
    - (* optptr *)
      cbn [des_ty wf] in *. destruct (des_flag _ _ _) as [[[] n] p]; try reflexivity.
      destruct n; [reflexivity|]. apply des_ptr_eq with (t := t); auto. now apply wt_dflt.
    - (* ptr *)
      cbn [des_ty wf] in *. apply des_ptr_eq with (t := t); auto. now apply wt_dflt.
    - (* variant *)
      rewrite !des_variant_eq.
      cbn [wf] in Hw. rewrite !andb_true_iff in Hw. destruct Hw as [_ Hw].
      destruct (des_id _ _ _ _) as [[[] n] p]; try reflexivity.
      destruct (find_id meta n) as [i|]; [|reflexivity].
      destruct (nth_error alts i) as [t'|] eqn:Ea; [|reflexivity].
      pose proof (nth_error_In _ _ Ea) as Hin.
      rewrite forallb_forall in Hw. rewrite Forall_forall in H.
      apply des_inplace_eq with (t := t'); auto; [now apply wt_dflt; auto|].
      intros x Hx. destruct prior; try discriminate. cbn [active] in Hx.
      destruct (Nat.eqb_spec i i0) as [->|]; [|discriminate]. injection Hx as <-.
      cbn [wt] in Hpr. now rewrite Ea in Hpr.
    - (* span *)
      destruct prior; try discriminate. cbn [wt] in Hpr. cbn [des_ty as_seq].
      cbn [wf] in Hw. apply andb_true_iff in Hw as [Hs Hw].
      destruct (sz_of c s); [now apply des_elems_eq; auto|..];
        (destruct (des_size _ _ _ _) as [[[] n] p]; try reflexivity;
         destruct (_ <? n); [reflexivity|]; apply des_elems_eq; auto;
         rewrite forallb_forall in *; intros x Hin; apply Hpr;
         rewrite <- (firstn_skipn (N.to_nat n) l); apply in_or_app; now left).
  Qed.
End Ext.

Theorem cdes_in_order G F c data :
  wf_env G -> (forall k, F k = in_order 0 (t_mems G k)) ->
  forall fuel t prior pos, wf G t = true -> wt G prior t = true ->
    cdes G F c data fuel t prior pos = des G c data fuel t prior pos.
Proof.
  intros HG HF fuel t prior pos Hw Hp. unfold cdes, des. apply des_ty_eq; auto.
  clear t prior pos Hw Hp. induction fuel as [|f IH]; intros k prior pos Hp; cbn [cdes_rec des_rec]; [reflexivity|].
  destruct prior as [|l| | | | | |]; try discriminate. cbn [as_seq wt] in *.
  rewrite HF. rewrite (run_in_in_order _ _ (t_mems G k) [] l) by (eapply forall2b_length; eauto).
  cbn [app]. rewrite (des_many_eq G (des_ty G c data (cdes_rec G F c data f)) (des_ty G c data (des_rec G c data f))); auto.
  - destruct (des_many _ _ _ _) as [[r l'] p]. reflexivity.
  - destruct (HG k) as [Hw _]. rewrite forallb_forall in Hw. rewrite Forall_forall. intros m Hin.
    apply des_ty_eq; auto.
Qed.

Lemma nth_error_ext {A} (l l' : list A) :
  length l = length l' -> (forall i, (i < length l)%nat -> nth_error l i = nth_error l' i) -> l = l'.
Proof.
  revert l'; induction l as [|x l IH]; intros [|y l'] HL H; try discriminate; [reflexivity|].
  pose proof (H O ltac:(cbn; lia)) as H0. injection H0 as ->. f_equal. apply IH; [now injection HL|].
  intros i Hi. apply (H (S i)). cbn. lia.
Qed.

Lemma nth_error_set_nth {A} (l : list A) i x j :
  nth_error (set_nth i x l) j = if (i =? j)%nat then option_map (fun _ => x) (nth_error l j) else nth_error l j.
Proof.
  revert i j. induction l as [|y l IH]; intros [|i] [|j]; cbn; try reflexivity.
  - destruct (i =? j)%nat; reflexivity.
  - apply IH.
Qed.

Lemma set_nth_length {A} (l : list A) i x : length (set_nth i x l) = length l.
Proof. revert i. induction l as [|y l IH]; intros [|i]; cbn; auto. Qed.

Lemma causal_mirrors G (Q : ty -> Prop) ts R (M : val -> ty -> Prop) (B : val -> ty -> val -> Prop) self :
  object G self ts -> (forall x t y, M x t -> B x t y) ->
  forall p D cur, sound G Q ts p -> causal D p -> complete R M self D p -> object G cur ts ->
    agree_on D self cur ->
    mirrors R (map B self) self p p cur self.
Proof.
  intros Hs HB. induction p as [|e| |i t k IH|t f k IH|f k IH]; intros D cur S C P Ho HA; cbn [sound causal complete] in *.
  - assert (E : cur = self); [|rewrite E; apply mi_ret].
    symmetry.
    pose proof (forall2b_length _ _ _ Hs). pose proof (forall2b_length _ _ _ Ho).
    apply nth_error_ext; [congruence|]. intros i Hi. auto.
  - destruct P.
  - destruct P.
  - destruct S as ((t0 & E0 & Ht0) & _ & _ & Sk). destruct C as [Ck Cc]. destruct P as [(x & Ex & Px) P].
    destruct (forall2b_nth_l _ _ _ _ _ Ho E0) as (y & Ey & _).
    assert (Wx : wt G x t0 = true) by (eapply nth_object; [exact Hs|..]; eauto).
    assert (Ho' : object G (set_nth i x cur) ts) by (apply (forall2b_set _ _ _ _ _ t0 Ho E0); exact Wx).
    assert (HA' : agree_on (i :: D) self (set_nth i x cur)).
    { intros j Hj. rewrite nth_error_set_nth. destruct (Nat.eqb_spec i j) as [<-|Hne].
      - rewrite Ey. cbn. exact Ex.
      - destruct Hj as [->|Hj]; [congruence|]. now apply HA. }
    econstructor; eauto.
    + rewrite nth_error_map, Ex. reflexivity.
    + exact (HB _ _ _ Px).
    + rewrite <- (Ck _ _ HA'). apply (IH self (i :: D)); auto.
  - destruct S as (_ & _ & _ & Hf & Sk). destruct C as [Ck Cc]. destruct P as [P1 P].
    apply mi_loc; auto. rewrite <- (Ck (f self) self cur HA). apply (IH (f self) self D); auto.
  - destruct S as [Sf Sk]. destruct C as [Cf Ck]. apply mi_write_set, mi_read_set. apply (IH D); auto.
    intros j Hj. rewrite (HA j Hj). now apply Cf.
Qed.
