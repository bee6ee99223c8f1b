(** More stack never changes a result, except that of exhausting it. *)

From Coq Require Import List NArith ZArith Lia Bool Arith.
From Verif Require Import Base.Bytes Model.Types Model.Machine Model.Varint Model.Out Model.In
  Proofs.InBase.
Import ListNotations.
Local Open Scope N_scope.

Definition fmono {A} (x x' : res * A * nat) : Prop := fst (fst x) = RStack \/ x' = x.

Section Fuel.
  Variables (G : tenv) (c : cfg) (data : list byte).
  Definition fm (f f' : val -> nat -> dres) : Prop := forall x p, fmono (f x p) (f' x p).

  Lemma fmono_seq x x' : fmono x x' -> fmono (seq_res x) (seq_res x').
  Proof. destruct x as [[r l] p]. intros [H| ->]; [left; exact H|right; reflexivity]. Qed.

  Lemma des_many_fuel (f f' : ty -> val -> nat -> dres) ms :
    Forall (fun m => fm (f m) (f' m)) ms ->
    forall l pos, fmono (des_many f ms l pos) (des_many f' ms l pos).
  Proof.
    induction 1 as [|m ms Hm _ IH]; intros l pos; cbn [des_many]; [now right|].
    specialize (Hm (match l with x :: _ => x | [] => VNone end) pos).
    destruct (f m _ pos) as [[r v] p]. destruct Hm as [H|H].
    - cbn in H. subst r. left. reflexivity.
    - rewrite H. destruct r; try (right; reflexivity).
      specialize (IH (tl l) p). destruct (des_many f ms (tl l) p) as [[r1 l1] p1].
      destruct IH as [E|E]; [left; exact E|]. rewrite E. now right.
  Qed.

  Lemma des_all_fuel f f' : fm f f' -> forall l pos, fmono (des_all f l pos) (des_all f' l pos).
  Proof.
    intro Hf. induction l as [|x l IH]; intro pos; cbn [des_all]; [now right|].
    specialize (Hf x pos). destruct (f x pos) as [[r v] p]. destruct Hf as [H|H].
    - cbn in H. subst r. left. reflexivity.
    - rewrite H. destruct r; try (right; reflexivity).
      specialize (IH p). destruct (des_all f l p) as [[r1 l1] p1].
      destruct IH as [E|E]; [left; exact E|]. rewrite E. now right.
  Qed.

  Lemma des_assoc_fuel f f' ins d : fm f f' ->
    forall n acc pos, fmono (des_assoc f ins d n acc pos) (des_assoc f' ins d n acc pos).
  Proof.
    intro Hf. induction n as [|n IH]; intros acc pos; cbn [des_assoc]; [now right|].
    specialize (Hf d pos). destruct (f d pos) as [[r v] p]. destruct Hf as [H|H].
    - cbn in H. subst r. left. reflexivity.
    - rewrite H. destruct r; try (right; reflexivity). apply IH.
  Qed.

  Lemma des_elems_fuel b f f' t l pos : fm f f' ->
    fmono (des_elems c data b f t l pos) (des_elems c data b f' t l pos).
  Proof.
    intro Hf. unfold des_elems. apply fmono_seq. destruct b; [now right|]. now apply des_all_fuel.
  Qed.

  Lemma des_inplace_fuel dc f f' wrap cur d prior pos : fm f f' ->
    fmono (des_inplace dc f wrap cur d prior pos) (des_inplace dc f' wrap cur d prior pos).
  Proof.
    intro Hf. unfold des_inplace. destruct dc.
    - specialize (Hf (match cur with Some x => x | None => d end) pos).
      destruct (f _ pos) as [[r v] p]. destruct Hf as [H|H]; [left; exact H|]. rewrite H. now right.
    - specialize (Hf d pos). destruct (f d pos) as [[r v] p].
      destruct Hf as [H|H]; [cbn in H; subst r; left; reflexivity|]. rewrite H. now right.
  Qed.

  Lemma des_ptr_fuel f f' d prior pos : fm f f' -> fmono (des_ptr f d prior pos) (des_ptr f' d prior pos).
  Proof.
    intro Hf. unfold des_ptr. specialize (Hf d pos). destruct (f d pos) as [[r v] p].
    destruct Hf as [H|H]; [cbn in H; subst r; left; reflexivity|]. rewrite H. now right.
  Qed.

  Variables rec rec' : nat -> val -> nat -> dres.
  Hypothesis Hrec : forall k, fm (rec k) (rec' k).

  Lemma des_ty_fuel t : fm (des_ty G c data rec t) (des_ty G c data rec' t).
  Proof.
    induction t using ty_ind'; intros x p; try (right; reflexivity).
    - cbn [des_ty]. destruct (_ && _); [now right|]. destruct (as_bytes _ _); [now right|].
      apply fmono_seq. now apply des_many_fuel.
    - cbn [des_ty]. apply Hrec.
    - cbn [des_ty]. now apply des_elems_fuel.
    - cbn [des_ty]. apply fmono_seq. now apply des_many_fuel.
    - cbn [des_ty]. destruct (sz_of c s) as [|w|w]; [now apply des_elems_fuel|..];
      (destruct (des_size c data _ p) as [[[] n] q]; try (right; reflexivity);
       destruct (vec_resize G c t n (as_seq x)) as [[] l]; try (right; reflexivity);
       now apply des_elems_fuel).
    - cbn [des_ty]. destruct (sz_of c s) as [|w|w]; [apply fmono_seq; now apply des_assoc_fuel|..];
      (destruct (des_size c data _ p) as [[[] n] q]; try (right; reflexivity);
       apply fmono_seq; now apply des_assoc_fuel).
    - cbn [des_ty]. destruct (des_flag c data p) as [[[] n] q]; try (right; reflexivity).
      destruct n; [now right|]. now apply des_inplace_fuel.
    - cbn [des_ty]. destruct (des_flag c data p) as [[[] n] q]; try (right; reflexivity).
      destruct n; [now right|]. now apply des_ptr_fuel.
    - cbn [des_ty]. now apply des_ptr_fuel.
    - rewrite !des_variant_eq. destruct (des_id c data ik p) as [[[] n] q]; try (right; reflexivity).
      destruct (find_id meta n) as [i|]; [|now right].
      destruct (nth_error alts i) as [t'|] eqn:Ea; [|now right].
      rewrite Forall_forall in H. specialize (H t' (nth_error_In _ _ Ea)).
      now apply des_inplace_fuel.
    - cbn [des_ty]. destruct (sz_of c s) as [|w|w]; [now apply des_elems_fuel|..];
      (destruct (des_size c data _ p) as [[[] n] q]; try (right; reflexivity);
       destruct (_ <? _); [now right|]; now apply des_elems_fuel).
  Qed.
End Fuel.

Section FuelRec.
  Variables (G : tenv) (c : cfg) (data : list byte).

  Lemma des_rec_fuel f f' k : (f <= f')%nat -> fm (des_rec G c data f k) (des_rec G c data f' k).
  Proof.
    revert f' k. induction f as [|f IH]; intros f' k Hf x p; [left; reflexivity|].
    destruct f' as [|f']; [lia|]. cbn [des_rec]. apply fmono_seq. apply des_many_fuel.
    rewrite Forall_forall. intros m _. apply des_ty_fuel. intro k'. apply IH. lia.
  Qed.

  Lemma des_fuel f f' t x p : (f <= f')%nat ->
    fmono (des G c data f t x p) (des G c data f' t x p).
  Proof. intro Hf. unfold des. apply des_ty_fuel. intro k. now apply des_rec_fuel. Qed.
End FuelRec.
