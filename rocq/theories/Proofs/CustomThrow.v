(** Functions that throw, and the same functions returning an error instead. *)

From Coq Require Import List NArith ZArith Lia Bool Arith.
From Coq Require Import ZifyBool ZifyNat ZifyN.
From Verif Require Import Base.Bytes Model.Types Model.Machine Model.Varint Model.Out Model.In Model.Pb
  Model.Custom Spec.Leb128 Spec.Wire Spec.CustomWire Proofs.OutP Proofs.InBase Proofs.InSafe.
Import ListNotations.
Local Open Scope N_scope.

(** ** Output *)

Definition tact (e : errc) (a a' : act) : Prop :=
  forall st, told e (fst (a st)) (fst (a' st)) /\ snd (a' st) = snd (a st).

Lemma told_refl e r : told e r r.
Proof. now left. Qed.
Lemma tact_refl e a : tact e a a.
Proof. intro st. split; [apply told_refl|reflexivity]. Qed.

Lemma tact_seq e a a' b b' : tact e a a' -> tact e b b' -> tact e (a ;; b) (a' ;; b').
Proof.
  intros Ha Hb st. unfold seq. destruct (Ha st) as [H1 H2].
  destruct (a st) as [r s], (a' st) as [r' s']. cbn [fst snd] in *. subst s'.
  destruct H1 as [->|[-> ->]]; [destruct r; cbn [fst snd]; auto using told_refl|cbn; split; [now right|reflexivity]].
Qed.

Lemma tact_many e f g l ms :
  Forall (fun x => forall t, tact e (f x t) (g x t)) l -> tact e (ser_many f l ms) (ser_many g l ms).
Proof.
  intro H. revert ms. induction H as [|x l Hx _ IH]; intros [|m ms]; cbn [ser_many]; try apply tact_refl.
  now apply tact_seq.
Qed.

Lemma tact_all e f g l t :
  Forall (fun x => forall t, tact e (f x t) (g x t)) l -> tact e (ser_all f l t) (ser_all g l t).
Proof.
  intro H. induction H as [|x l Hx _ IH]; cbn [ser_all]; try apply tact_refl. now apply tact_seq.
Qed.

Lemma run_out_returning G c e self : forall p ms ms',
  Forall2 (fun a a' => forall t, tact e (a t) (a' t)) ms ms' ->
  tact e (run_out G c ms self p) (run_out G c ms' self (returning e p)).
Proof.
  induction p as [|e'| |i t k IH|t f k IH|f k IH]; intros ms ms' H; cbn [run_out returning];
    try apply tact_refl; auto using tact_seq, tact_refl.
  - intro st. cbn. split; [now right|reflexivity].
  - assert (E : match nth_error ms i, nth_error ms' i with
                | Some a, Some a' => forall t, tact e (a t) (a' t)
                | None, None => True | _, _ => False end).
    { clear -H. revert i; induction H as [|a a' ms ms' Ha _ IHs]; intros [|i]; cbn [nth_error]; [exact I|exact I|exact Ha|apply IHs]. }
    destruct (nth_error ms i), (nth_error ms' i); try contradiction; [|apply tact_refl].
    apply tact_seq; auto.
Qed.

Lemma cser_returning G F c e : forall v t, tact e (cser G F c v t) (cser G (fun k => returning e (F k)) c v t).
Proof.
  induction v as [n|l IH| |v IH|i v IH| |l|l] using val_ind'; intro t;
    destruct t as [w isb| |w sg zz| |si ms|k|n' t'|ts|s cg t'|s k t'|dc t'|t'|t'|ik meta alts|n'|k|s t'];
    cbn [cser]; try apply tact_refl.
  - destruct (_ && _); [apply tact_refl|]. destruct (as_bytes _ _); [apply tact_refl|]. now apply tact_many.
  - apply run_out_returning. clear -IH. induction IH; constructor; auto.
  - destruct (as_bytes _ _); [apply tact_refl|]. now apply tact_all.
  - now apply tact_many.
  - apply tact_seq; [apply tact_refl|]. destruct (_ && _); [apply tact_refl|]. now apply tact_all.
  - apply tact_seq; [apply tact_refl|]. now apply tact_all.
  - apply tact_seq; [apply tact_refl|]. destruct (as_bytes _ _); [apply tact_refl|]. now apply tact_all.
  - apply tact_seq; [apply tact_refl|]. auto.
  - apply tact_seq; [apply tact_refl|]. auto.
  - auto.
  - destruct (nth_error meta i) as [[id dc]|]; [|apply tact_refl].
    destruct (nth_error alts i) as [t'|]; [|apply tact_refl].
    apply tact_seq; [apply tact_refl|]. auto.
Qed.

(** ** Input *)

Definition tdes {A} (e : errc) (x y : res * A * nat) : Prop :=
  match x, y with (r, v, p), (r', v', p') => told e r r' /\ v' = v /\ p' = p end.

Lemma tdes_refl {A} e (x : res * A * nat) : tdes e x x.
Proof. destruct x as [[r v] p]. repeat split. apply told_refl. Qed.

Ltac told2 :=
  match goal with
  | H : tdes ?e ?x ?y |- _ =>
      destruct x as [[?r ?v] ?p], y as [[?r ?v] ?p]; destruct H as ([->|[-> ->]] & -> & ->)
  end.

Section Told.
  Variables (G : tenv) (c : cfg) (data : list byte) (e : errc).
  Definition tf (f f' : val -> nat -> dres) : Prop := forall prior pos, tdes e (f prior pos) (f' prior pos).

  Lemma des_many_told f f' ms : Forall (fun m => tf (f m) (f' m)) ms ->
    forall priors pos, tdes e (des_many f ms priors pos) (des_many f' ms priors pos).
  Proof.
    induction 1 as [|m ms HE _ IH]; intros priors pos; cbn [des_many]; [apply tdes_refl|].
    pose proof (HE (match priors with x :: _ => x | [] => VNone end) pos) as H. told2; [|repeat split; now right].
    destruct r; try apply tdes_refl. specialize (IH (tl priors) p).
    told2; repeat split; [apply told_refl|now right].
  Qed.

  Lemma des_all_told f f' : tf f f' -> forall l pos, tdes e (des_all f l pos) (des_all f' l pos).
  Proof.
    intro HE. induction l as [|x l IH]; intros pos; cbn [des_all]; [apply tdes_refl|].
    pose proof (HE x pos) as H. told2; [|repeat split; now right].
    destruct r; try apply tdes_refl. specialize (IH p).
    told2; repeat split; [apply told_refl|now right].
  Qed.

  Lemma des_assoc_told f f' ins d : tf f f' ->
    forall n acc pos, tdes e (des_assoc f ins d n acc pos) (des_assoc f' ins d n acc pos).
  Proof.
    intro HE. induction n as [|n IH]; intros acc pos; cbn [des_assoc]; [apply tdes_refl|].
    pose proof (HE d pos) as H. told2; [|repeat split; now right].
    destruct r; try apply tdes_refl. apply IH.
  Qed.

  Lemma seq_res_told x y : tdes e x y -> tdes e (seq_res x) (seq_res y).
  Proof. intro H. told2; repeat split; [apply told_refl|now right]. Qed.

  Lemma des_elems_told b f f' t l pos : tf f f' ->
    tdes e (des_elems c data b f t l pos) (des_elems c data b f' t l pos).
  Proof.
    intro HE. unfold des_elems. apply seq_res_told. destruct b; [apply tdes_refl|]. now apply des_all_told.
  Qed.

  Lemma des_inplace_told dc f f' wrap cur d prior pos : tf f f' ->
    tdes e (des_inplace dc f wrap cur d prior pos) (des_inplace dc f' wrap cur d prior pos).
  Proof.
    intro HE. unfold des_inplace. destruct dc.
    - pose proof (HE (match cur with Some x => x | None => d end) pos) as H. told2; repeat split;
        [apply told_refl|now right].
    - pose proof (HE d pos) as H. told2; [|repeat split; now right]. destruct r; apply tdes_refl.
  Qed.

  Lemma des_ptr_told f f' d prior pos : tf f f' -> tdes e (des_ptr f d prior pos) (des_ptr f' d prior pos).
  Proof.
    intro HE. unfold des_ptr. pose proof (HE d pos) as H. told2; [|repeat split; now right].
    destruct r; apply tdes_refl.
  Qed.

  Lemma des_ty_told rec rec' : (forall k, tf (rec k) (rec' k)) ->
    forall t, tf (des_ty G c data rec t) (des_ty G c data rec' t).
  Proof.
    intro Hrec. induction t using ty_ind'; intros prior pos; try apply tdes_refl.
    - cbn [des_ty]. destruct (_ && _); [apply tdes_refl|]. destruct (as_bytes _ _); [apply tdes_refl|].
      apply seq_res_told. now apply des_many_told.
    - cbn [des_ty]. apply Hrec.
    - cbn [des_ty]. now apply des_elems_told.
    - cbn [des_ty]. apply seq_res_told. now apply des_many_told.
    - cbn [des_ty]. destruct (sz_of c s); [now apply des_elems_told|..];
        (destruct (des_size _ _ _ _) as [[[] n] p]; try apply tdes_refl;
         destruct (vec_resize _ _ _ _ _) as [[] l]; try apply tdes_refl; now apply des_elems_told).
    - cbn [des_ty]. destruct (match sz_of c s with SzNone => _ | _ => _ end) as [[[] n] p]; try apply tdes_refl.
      apply seq_res_told. now apply des_assoc_told.
    - cbn [des_ty]. destruct (des_flag _ _ _) as [[[] n] p]; try apply tdes_refl.
      destruct n; [apply tdes_refl|]. now apply des_inplace_told.
    - cbn [des_ty]. destruct (des_flag _ _ _) as [[[] n] p]; try apply tdes_refl.
      destruct n; [apply tdes_refl|]. now apply des_ptr_told.
    - cbn [des_ty]. now apply des_ptr_told.
    - rewrite !des_variant_eq. destruct (des_id _ _ _ _) as [[[] n] p]; try apply tdes_refl.
      destruct (find_id meta n) as [i|]; [|apply tdes_refl].
      destruct (nth_error alts i) as [t'|] eqn:Ea; [|apply tdes_refl].
      rewrite Forall_forall in H. apply des_inplace_told. apply H. eapply nth_error_In; eauto.
    - cbn [des_ty]. destruct (sz_of c s); [now apply des_elems_told|..];
        (destruct (des_size _ _ _ _) as [[[] n] p]; try apply tdes_refl;
         destruct (_ <? n); [apply tdes_refl|]; now apply des_elems_told).
  Qed.

  Lemma run_in_told rd rd' loc : (forall t, tf (rd t) (rd' t)) ->
    forall p self pos, tdes e (run_in rd loc p self pos) (run_in rd' loc (returning e p) self pos).
  Proof.
    intro H. induction p as [|e'| |i t k IH|t f k IH|f k IH]; intros self pos; cbn [run_in returning];
      try apply tdes_refl; auto.
    - repeat split. now right.
    - destruct (nth_error self i) as [x|]; [|apply tdes_refl].
      pose proof (H t x pos) as T. told2; [|repeat split; now right].
      destruct r; try apply tdes_refl. apply IH.
    - destruct (loc t (f self) pos) as [[[] y] p]; try apply tdes_refl. apply IH.
  Qed.

  Lemma cdes_told F fuel t : tf (cdes G F c data fuel t) (cdes G (fun k => returning e (F k)) c data fuel t).
  Proof.
    unfold cdes. apply des_ty_told. induction fuel as [|f IH]; intros k prior pos; cbn [cdes_rec].
    - apply tdes_refl.
    - apply seq_res_told. apply run_in_told. intro. now apply des_ty_told.
  Qed.
End Told.
