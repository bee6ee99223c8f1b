(** Reading under an allocation limit never asks the allocator for more than the limit. *)

From Coq Require Import List NArith ZArith Lia Bool Arith.
From Coq Require Import ZifyBool ZifyNat ZifyN.
From Verif Require Import Base.Bytes Model.Types Model.Machine Model.Varint Model.Out Model.In
  Proofs.InBase.
Import ListNotations.
Local Open Scope N_scope.

(** The same archive with another allocator. *)
Definition with_alloc (c : cfg) (ok : N -> bool) : cfg :=
  mkCfg (host_le c) (swap c) (dsize c) (alim c) (emul c) (ediv c) (noovf c) (nofit c) (growable c) ok (abi c).

Section Alloc.
  Variables (G : tenv) (c : cfg) (data : list byte) (L : N) (ok : N -> bool).
  Hypothesis (HL : alim c = Some L) (Hok : forall n, n <= L -> ok n = alloc_ok c n).
  Notation c' := (with_alloc c ok).

  Lemma vec_resize_alloc t n l : vec_resize G c' t n l = vec_resize G c t n l.
  Proof.
    unfold vec_resize. change (over_limit c' t n) with (over_limit c t n).
    change (csizeof c' t) with (csizeof c t).
    destruct (over_limit c t n) eqn:E; [reflexivity|].
    unfold over_limit in E. rewrite HL in E. apply N.ltb_ge in E.
    replace (can_alloc c' (n * csizeof c t)) with (can_alloc c (n * csizeof c t)); [reflexivity|].
    unfold can_alloc. f_equal. cbn [alloc_ok with_alloc]. symmetry. apply Hok.
    destruct (N.eq_dec (csizeof c t) 0) as [->|Hz]; [lia|].
    pose proof (N.mul_div_le L (csizeof c t) Hz). nia.
  Qed.

  Lemma objparse_alloc t : forall l, objparse c' t l = objparse c t l.
  Proof.
    induction t using ty_ind'; intro l; try reflexivity; cbn [objparse].
    - replace (parse_many (objparse c') ms l) with (parse_many (objparse c) ms l); [reflexivity|].
      revert l. induction H as [|m ms Hm _ IH]; intro l; cbn [parse_many]; [reflexivity|].
      now rewrite Hm, IH.
    - replace (parse_all (objparse c' t) (bsize t) n l) with (parse_all (objparse c t) (bsize t) n l);
        [reflexivity|].
      revert l. induction n as [|n IH]; intro l; cbn [parse_all]; [reflexivity|].
      now rewrite IHt, IH.
  Qed.

  Lemma des_bytes_alloc t n l pos : des_bytes c' data t n l pos = des_bytes c data t n l pos.
  Proof.
    unfold des_bytes. destruct (_ =? 0); [reflexivity|]. destruct (_ <? _); [reflexivity|].
    destruct (load _ _ _) as [e|]; [|reflexivity].
    replace (parse_all (objparse c' t) (bsize t) n e) with (parse_all (objparse c t) (bsize t) n e);
      [reflexivity|].
    revert e. induction n as [|n IH]; intro e; cbn [parse_all]; [reflexivity|].
    now rewrite objparse_alloc, IH.
  Qed.

  Lemma des_many_ext (f g : ty -> val -> nat -> dres) ms :
    Forall (fun m => forall x p, f m x p = g m x p) ms ->
    forall l pos, des_many f ms l pos = des_many g ms l pos.
  Proof.
    induction 1 as [|m ms Hm _ IH]; intros l pos; cbn [des_many]; [reflexivity|].
    rewrite Hm. destruct (g m _ pos) as [[[] v] p]; try reflexivity. now rewrite IH.
  Qed.

  Lemma des_all_ext (f g : val -> nat -> dres) l : (forall x p, f x p = g x p) ->
    forall pos, des_all f l pos = des_all g l pos.
  Proof.
    intro H. induction l as [|x l IH]; intro pos; cbn [des_all]; [reflexivity|].
    rewrite H. destruct (g x pos) as [[[] v] p]; try reflexivity. now rewrite IH.
  Qed.

  Lemma des_assoc_ext (f g : val -> nat -> dres) ins d n : (forall x p, f x p = g x p) ->
    forall acc pos, des_assoc f ins d n acc pos = des_assoc g ins d n acc pos.
  Proof.
    intro H. induction n as [|n IH]; intros acc pos; cbn [des_assoc]; [reflexivity|].
    rewrite H. destruct (g d pos) as [[[] v] p]; try reflexivity. now rewrite IH.
  Qed.

  Lemma des_elems_ext b (f g : val -> nat -> dres) t l pos : (forall x p, f x p = g x p) ->
    des_elems c' data b f t l pos = des_elems c data b g t l pos.
  Proof.
    intro H. unfold des_elems. f_equal. destruct b; [apply des_bytes_alloc|]. now apply des_all_ext.
  Qed.

  Variables rec rec' : nat -> val -> nat -> dres.
  Hypothesis Hrec : forall k x p, rec' k x p = rec k x p.

  Lemma des_ty_alloc t : forall x p, des_ty G c' data rec' t x p = des_ty G c data rec t x p.
  Proof.
    induction t using ty_ind'; intros x p; try reflexivity.
    - cbn [des_ty]. change (as_bytes c' (TStruct si ms)) with (as_bytes c (TStruct si ms)).
      destruct (_ && _); [reflexivity|]. destruct (as_bytes _ _); [now rewrite des_bytes_alloc|].
      f_equal. now apply des_many_ext.
    - cbn [des_ty]. apply Hrec.
    - cbn [des_ty]. apply des_elems_ext. exact IHt.
    - cbn [des_ty]. f_equal. now apply des_many_ext.
    - cbn [des_ty]. change (sz_of c' s) with (sz_of c s).
      change (as_bytes c' t) with (as_bytes c t).
      destruct (sz_of c s) as [|w|w]; [apply des_elems_ext; exact IHt|..];
      [change (des_size c' data (SzFix w) p) with (des_size c data (SzFix w) p)
      |change (des_size c' data (SzVar w) p) with (des_size c data (SzVar w) p)];
      (destruct (des_size c data _ p) as [[[] n] q]; try reflexivity;
       rewrite vec_resize_alloc; destruct (vec_resize G c t n (as_seq x)) as [[] l]; try reflexivity;
       apply des_elems_ext; exact IHt).
    - cbn [des_ty]. change (sz_of c' s) with (sz_of c s).
      destruct (sz_of c s) as [|w|w]; [f_equal; apply des_assoc_ext; exact IHt|..];
      [change (des_size c' data (SzFix w) p) with (des_size c data (SzFix w) p)
      |change (des_size c' data (SzVar w) p) with (des_size c data (SzVar w) p)];
      (destruct (des_size c data _ p) as [[[] n] q]; try reflexivity;
       f_equal; apply des_assoc_ext; exact IHt).
    - cbn [des_ty]. change (des_flag c' data p) with (des_flag c data p).
      destruct (des_flag c data p) as [[[] n] q]; try reflexivity. destruct n; [reflexivity|].
      unfold des_inplace. now rewrite !IHt.
    - cbn [des_ty]. change (des_flag c' data p) with (des_flag c data p).
      destruct (des_flag c data p) as [[[] n] q]; try reflexivity. destruct n; [reflexivity|].
      unfold des_ptr. now rewrite !IHt.
    - cbn [des_ty]. unfold des_ptr. now rewrite !IHt.
    - rewrite !des_variant_eq. change (des_id c' data ik p) with (des_id c data ik p).
      destruct (des_id c data ik p) as [[[] n] q]; try reflexivity.
      destruct (find_id meta n) as [i|]; [|reflexivity].
      destruct (nth_error alts i) as [t'|] eqn:Ea; [|reflexivity].
      rewrite Forall_forall in H. specialize (H t' (nth_error_In _ _ Ea)).
      unfold des_inplace. now rewrite !H.
    - cbn [des_ty]. change (sz_of c' s) with (sz_of c s).
      change (as_bytes c' t) with (as_bytes c t).
      destruct (sz_of c s) as [|w|w]; [apply des_elems_ext; exact IHt|..];
      [change (des_size c' data (SzFix w) p) with (des_size c data (SzFix w) p)
      |change (des_size c' data (SzVar w) p) with (des_size c data (SzVar w) p)];
      (destruct (des_size c data _ p) as [[[] n] q]; try reflexivity;
       destruct (_ <? _); [reflexivity|]; apply des_elems_ext; exact IHt).
  Qed.
End Alloc.

Section AllocRec.
  Variables (G : tenv) (c : cfg) (data : list byte) (L : N) (ok : N -> bool).
  Hypothesis (HL : alim c = Some L) (Hok : forall n, n <= L -> ok n = alloc_ok c n).

  Lemma des_rec_alloc fuel k x p :
    des_rec G (with_alloc c ok) data fuel k x p = des_rec G c data fuel k x p.
  Proof.
    revert k x p. induction fuel as [|f IH]; intros k x p; cbn [des_rec]; [reflexivity|].
    f_equal. apply des_many_ext. rewrite Forall_forall. intros m _ y q.
    eapply des_ty_alloc; eauto.
  Qed.

  Lemma des_alloc fuel t x p : des G (with_alloc c ok) data fuel t x p = des G c data fuel t x p.
  Proof. unfold des. eapply des_ty_alloc; eauto using des_rec_alloc. Qed.
End AllocRec.
