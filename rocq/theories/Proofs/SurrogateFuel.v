(** Classes whose functions go through other classes: the depth of the stack. *)

From Coq Require Import List NArith ZArith Lia Bool Arith.
From Verif Require Import Base.Bytes Model.Types Model.Machine Model.Varint Model.Out Model.In Model.Pb
  Model.Custom Model.Surrogate Spec.Leb128 Spec.Wire Spec.CustomWire Spec.SurrogateWire
  Proofs.OutP Proofs.InFuel Proofs.CustomP Proofs.SurrogateP.
Import ListNotations.
Local Open Scope N_scope.

(** ** Writing with more stack *)

Definition am (a a' : act) : Prop := forall st, fst (a st) = RStack \/ a' st = a st.

Lemma am_refl a : am a a.
Proof. intro st. now right. Qed.

Lemma am_seq a a' b b' : am a a' -> am b b' -> am (a ;; b) (a' ;; b').
Proof.
  intros H1 H2 st. unfold seq. specialize (H1 st). destruct (a st) as [r st1]. cbn [fst] in H1.
  destruct H1 as [->|H1]; [left; reflexivity|]. rewrite H1. destruct r; try (right; reflexivity). apply H2.
Qed.

Lemma am_many f g l : Forall (fun x => forall t, am (f x t) (g x t)) l -> forall ms, am (ser_many f l ms) (ser_many g l ms).
Proof. induction 1 as [|x l Hx _ IH]; intros [|m ms]; cbn [ser_many]; try apply am_refl. apply am_seq; auto. Qed.

Lemma am_all f g l t : Forall (fun x => forall t, am (f x t) (g x t)) l -> am (ser_all f l t) (ser_all g l t).
Proof. induction 1 as [|x l Hx _ IH]; cbn [ser_all]; [apply am_refl|]. apply am_seq; auto. Qed.

Lemma wser_am c r r' : (forall k l, am (r k l) (r' k l)) -> forall v t, am (wser c r v t) (wser c r' v t).
Proof.
  intro H. induction v as [n|l IH| |v IH|i v IH| |l|l] using val_ind'; intros t;
    destruct t as [w isb| |w sg zz| |si ms|k|n' t'|ts|s cg t'|s k t'|dc t'|t'|t'|ik meta alts|n'|k|s t'];
    try apply am_refl; cbn [wser]; auto using am_many, am_all.
  - destruct (_ && _); [apply am_refl|]. destruct (as_bytes _ _); auto using am_refl, am_many.
  - destruct (as_bytes _ _); auto using am_refl, am_all.
  - apply am_seq; [apply am_refl|]. destruct (_ && _); auto using am_refl, am_all.
  - apply am_seq; auto using am_refl, am_all.
  - apply am_seq; [apply am_refl|]. destruct (as_bytes _ _); auto using am_refl, am_all.
  - apply am_seq; auto using am_refl.
  - apply am_seq; auto using am_refl.
  - destruct (nth_error meta i) as [[id dc]|]; [|apply am_refl].
    destruct (nth_error alts i); [|apply am_refl]. apply am_seq; auto using am_refl.
Qed.

Lemma run_w_am wr wr' self p : (forall x t, am (wr x t) (wr' x t)) -> am (run_w wr self p) (run_w wr' self p).
Proof.
  intro H. induction p as [|e| |i t k IH|t f k IH|f k IH]; cbn [run_w]; auto using am_refl, am_seq.
  destruct (nth_error self i); auto using am_refl, am_seq.
Qed.

Lemma pser_rec_am F c f f' : (f <= f')%nat -> forall k l, am (pser_rec F c f k l) (pser_rec F c f' k l).
Proof.
  revert f'. induction f as [|f IH]; intros f' Hf k l; [intro st; left; reflexivity|].
  destruct f' as [|f']; [lia|]. cbn [pser_rec]. apply run_w_am. intros. apply wser_am. intros. apply IH. lia.
Qed.

Theorem pser_am F c f f' v t : (f <= f')%nat -> am (pser F c f v t) (pser F c f' v t).
Proof. intro Hf. unfold pser. apply wser_am. intros. now apply pser_rec_am. Qed.

(** ** Success means that the functions have come to an end *)

Definition tells (a : act) (p : yout) : Prop := forall st, fst (a st) = ROk -> p <> None.

Lemma tells_some a e : tells a (Some e).
Proof. intros st _. discriminate. Qed.

Lemma tells_seq a b p q : tells a p -> tells b q -> tells (a ;; b) (yseq p q).
Proof.
  intros H1 H2 st. unfold seq. specialize (H1 st). destruct (a st) as [r st1]. cbn [fst] in H1.
  destruct r; try (cbn [fst]; discriminate). intro E. specialize (H1 eq_refl). specialize (H2 st1 E).
  destruct p as [[e [s|]]|]; cbn [yseq]; try discriminate; [|congruence]. destruct q as [[e' s']|]; congruence.
Qed.

Lemma tells_after a b q : tells b q -> tells (a ;; b) q.
Proof.
  intros H st. unfold seq. destruct (a st) as [r st1]. destruct r; try (cbn [fst]; discriminate). apply H.
Qed.

Lemma tells_many G f g l : Forall (fun x => forall t, wt G x t = true -> tells (f x t) (g x t)) l ->
  forall ms, forall2b (fun x t => wt G x t) l ms = true -> tells (ser_many f l ms) (yenc_many g l ms).
Proof.
  induction 1 as [|x l Hx _ IH]; intros [|m ms] Hw; cbn [ser_many yenc_many forall2b] in *; try apply tells_some.
  apply andb_true_iff in Hw as [W1 W2]. apply tells_seq; auto.
Qed.

Lemma tells_all G f g l t : Forall (fun x => forall t, wt G x t = true -> tells (f x t) (g x t)) l ->
  forallb (fun x => wt G x t) l = true -> tells (ser_all f l t) (yenc_all g l t).
Proof.
  induction 1 as [|x l Hx _ IH]; intro Hw; cbn [ser_all yenc_all forallb] in *; [apply tells_some|].
  apply andb_true_iff in Hw as [W1 W2]. apply tells_seq; auto.
Qed.

Lemma tells_bulk G o e a l t : tall nrec t = true -> forallb (fun x => wt G x t) l = true ->
  tells a (yenc_all (yenc G o e) l t).
Proof.
  intros Hn Hw. rewrite (yenc_all_lift (enc G o)); [apply tells_some|].
  rewrite forallb_forall in Hw. intros x Hin. apply yenc_norec; auto.
Qed.

Lemma wser_tells G o c r e :
  (forall k l, object G l (t_mems G k) -> tells (r k l) (e k l)) ->
  forall v t, wt G v t = true -> tells (wser c r v t) (yenc G o e v t).
Proof.
  intro H. induction v as [n|l IH| |v IH|i v IH| |l|l] using val_ind'; intros t Hw;
    destruct t as [w isb| |w sg zz| |si ms|k|n' t'|ts|s cg t'|s k t'|dc t'|t'|t'|ik meta alts|n'|k|s t'];
    try apply tells_some; try discriminate.
  - cbn [wser yenc]. cbn [wt] in Hw. destruct (_ && _) eqn:Ee.
    { apply andb_true_iff in Ee as [_ Ee]. destruct ms; [|discriminate]. destruct l; [|discriminate]. apply tells_some. }
    destruct (as_bytes _ _) eqn:Eb; [|now apply (tells_many G)].
    change (yenc_many (yenc G o e) l ms) with (yenc G o e (VSeq l) (TStruct si ms)).
    rewrite yenc_norec; [apply tells_some|exact Hw|now apply bytes_nrec with (c := c)].
  - cbn [wser yenc]. apply H. exact Hw.
  - cbn [wser yenc wt] in *. apply andb_true_iff in Hw as [_ Hw].
    destruct (as_bytes _ _) eqn:Eb; [apply tells_bulk; auto; now apply bytes_nrec with (c := c)|now apply (tells_all G)].
  - cbn [wser yenc wt] in *. now apply (tells_many G).
  - cbn [wser yenc wt] in *. apply tells_seq; [apply tells_some|].
    destruct (_ && _) eqn:Eb; [|now apply (tells_all G)]. apply andb_true_iff in Eb as [Eb _].
    apply tells_bulk; auto; now apply bytes_nrec with (c := c).
  - cbn [wser yenc wt] in *. apply andb_true_iff in Hw as [Hw _].
    apply tells_seq; [apply tells_some|now apply (tells_all G)].
  - cbn [wser yenc wt] in *. apply tells_seq; [apply tells_some|].
    destruct (as_bytes _ _) eqn:Eb; [apply tells_bulk; auto; now apply bytes_nrec with (c := c)|now apply (tells_all G)].
  - cbn [wser yenc wt] in *. apply tells_seq; [apply tells_some|auto].
  - cbn [wser yenc wt] in *. apply tells_seq; [apply tells_some|auto].
  - cbn [wser yenc wt] in *. auto.
  - cbn [wser yenc wt] in *. destruct (nth_error alts i) as [t'|] eqn:Ea; [|discriminate].
    destruct (nth_error meta i) as [[id dc]|]; [|apply tells_some].
    apply tells_seq; [apply tells_some|auto].
Qed.

Lemma run_w_tells G Q ts wr en self p :
  object G self ts -> psound G Q ts p ->
  (forall x t, wt G x t = true -> tells (wr x t) (en x t)) -> tells (run_w wr self p) (ypath en self p).
Proof.
  intros Ho Hs Hit. revert Hs. induction p as [|e| |i t k IH|t f k IH|f k IH]; cbn [run_w ypath psound]; intro Hs;
    try apply tells_some; auto.
  - destruct Hs as ((t0 & E0 & Hx) & _ & _ & Hk). destruct (nth_error self i) as [x|] eqn:Ex; [|apply tells_some].
    apply tells_seq; auto. apply Hit. rewrite Hx. eapply nth_object; eauto.
  - destruct Hs as (_ & _ & Hf & Hk). apply tells_seq; auto.
  - destruct Hs as [_ Hs]. auto.
Qed.

Theorem pser_tells G F Q o c n v t :
  (forall k, psound G Q (t_mems G k) (F k)) -> wt G v t = true ->
  tells (pser F c n v t) (penc G F o n v t).
Proof.
  intros HF Hw. unfold pser, penc. apply wser_tells; auto. clear v t Hw.
  induction n as [|n IH]; intros k l Ho; cbn [pser_rec penc_rec]; [intros st; discriminate|].
  apply (run_w_tells G Q (t_mems G k)); auto. intros. now apply wser_tells.
Qed.

(** ** Reading with more stack *)

Lemma prun_fuel (rd rd' : ty -> val -> nat -> dres) : (forall t, fm (rd t) (rd' t)) ->
  forall p self pos, fmono (run_in rd rd p self pos) (run_in rd' rd' p self pos).
Proof.
  intro H. induction p as [|e| |i t k IH|t f k IH|f k IH]; intros self pos; cbn [run_in]; try (right; reflexivity); auto.
  - destruct (nth_error self i) as [x|]; [|right; reflexivity].
    specialize (H t x pos). destruct (rd t x pos) as [[r y] p'].
    destruct H as [E|E]; [cbn in E; subst r; left; reflexivity|]. rewrite E. destruct r; try (right; reflexivity). apply IH.
  - specialize (H t (f self) pos). destruct (rd t (f self) pos) as [[r y] p'].
    destruct H as [E|E]; [cbn in E; subst r; left; reflexivity|]. rewrite E. destruct r; try (right; reflexivity). apply IH.
Qed.

Lemma pdes_rec_fuel G F c data f f' k : (f <= f')%nat -> fm (pdes_rec G F c data f k) (pdes_rec G F c data f' k).
Proof.
  revert f' k. induction f as [|f IH]; intros f' k Hf x p; [left; reflexivity|].
  destruct f' as [|f']; [lia|]. cbn [pdes_rec]. apply fmono_seq. apply prun_fuel.
  intro t. apply des_ty_fuel. intro k'. apply IH. lia.
Qed.

Theorem pdes_fuel G F c data f f' t x p : (f <= f')%nat -> fmono (pdes G F c data f t x p) (pdes G F c data f' t x p).
Proof. intro Hf. unfold pdes. apply des_ty_fuel. intro k. now apply pdes_rec_fuel. Qed.
