(** What the protobuf reader requests from the allocator under alloc_limit. *)

From Coq Require Import List NArith ZArith Lia Bool Arith.
From Coq Require Import ZifyBool ZifyNat ZifyN.
From Verif Require Import Base.Bytes Model.Types Model.Machine Model.Varint Model.Out Model.In
  Model.Loops Model.Protocol Model.Pb Proofs.InAlloc.
Import ListNotations.
Local Open Scope N_scope.

Ltac Zify.zify_post_hook ::= Z.div_mod_to_equations.

(** No element-wise read container reserves. *)
Definition no_rsv (ck : ckind) : bool :=
  match ck with CSeq _ (Some _) | CSet _ (Some _) => false | _ => true end.

Fixpoint no_reserve (t : pty) : bool :=
  match t with
  | PVars ck _ _ _ => no_rsv ck
  | PFixes (CSet k rv) _ => no_rsv (CSet k rv)
  | PMap _ kt vt => no_reserve kt && no_reserve vt
  | _ => true
  end.

Lemma field_loop_ext data nums f g : (forall i wt x p, f i wt x p = g i wt x p) ->
  forall n vals pos, field_loop data nums f n vals pos = field_loop data nums g n vals pos.
Proof.
  intro H. induction n as [|n IH]; intros vals pos; cbn [field_loop]; [reflexivity|].
  destruct (_ <? _)%nat; [|reflexivity].
  destruct (des_varint 4 false 0 data pos) as [[[] tag] pos1]; try reflexivity.
  destruct (index_of nums _) as [i|]; [|destruct (_ =? 0); [reflexivity|apply IH]].
  destruct (nth_error vals i) as [x|]; [|reflexivity]. rewrite H.
  destruct (g i _ x pos1) as [[[] v] p]; try reflexivity. apply IH.
Qed.

Lemma des_nested_ext data f g : (forall sub vals, f sub vals = g sub vals) ->
  forall size prior pos, des_nested data f size prior pos = des_nested data g size prior pos.
Proof.
  intros H size prior pos. unfold des_nested. destruct (rest_of data pos); [|reflexivity].
  now rewrite H.
Qed.

Lemma des_protocol_ext c data s f g : (forall sz x p, f sz x p = g sz x p) ->
  forall prior pos, des_protocol c data s f prior pos = des_protocol c data s g prior pos.
Proof.
  intros H prior pos. unfold des_protocol.
  destruct s; try apply H; destruct (des_size _ _ _ _) as [[[] n] p]; auto.
Qed.

Lemma des_protocol_alloc c ok data s f prior pos :
  des_protocol (with_alloc c ok) data s f prior pos = des_protocol c data s f prior pos.
Proof. destruct s; reflexivity. Qed.

Section Alloc.
  Variables (P : penv) (c : cfg) (L : N) (ok : N -> bool).
  Hypothesis (HL : alim c = Some L) (Hok : forall n, n <= L -> ok n = alloc_ok c n).
  Let c' := with_alloc c ok.

  Lemma reserve_ok_alloc ck n l : no_rsv ck = true -> reserve_ok c' ck n l = reserve_ok c ck n l.
  Proof. destruct ck as [ct [b|]|k [b|]]; try discriminate; reflexivity. Qed.

  Lemma des_scalars_alloc data ck w resize fetch wt prior pos :
    (resize = true \/ no_rsv ck = true) ->
    des_scalars c' data ck w resize fetch wt prior pos = des_scalars c data ck w resize fetch wt prior pos.
  Proof.
    intro H. unfold des_scalars. destruct (negb _); [reflexivity|].
    destruct (des_varint 8 false 0 data pos) as [[[] len] p]; try reflexivity.
    destruct resize.
    - change (alim c') with (alim c). rewrite HL. destruct (N.ltb_spec L len); [reflexivity|].
      assert (E : can_alloc c' (len / N.of_nat w * N.of_nat w)
                  = can_alloc c (len / N.of_nat w * N.of_nat w)).
      { unfold can_alloc. change (alloc_ok c') with ok. rewrite Hok; [reflexivity|].
        destruct w as [|w]; [lia|].
        pose proof (N.mul_div_le len (N.of_nat (S w)) ltac:(lia)). lia. }
      rewrite E. destruct (_ || _); [|reflexivity].
      unfold c'. now apply (des_ty_alloc no_types c data L ok HL Hok).
    - destruct H as [H|H]; [discriminate|]. now rewrite reserve_ok_alloc.
  Qed.

  Lemma des_field_alloc (rec rec' : nat -> list byte -> list val -> res * list val * nat) :
    (forall k sub vals, rec' k sub vals = rec k sub vals) ->
    forall t data wt prior pos, no_reserve t = true ->
    des_field P c' rec' t data wt prior pos = des_field P c rec t data wt prior pos.
  Proof.
    intro Hrec.
    induction t; intros data wt prior pos Ht; cbn [des_field no_reserve] in *; try reflexivity.
    - unfold c'. rewrite des_protocol_alloc. apply des_protocol_ext. intros. now apply des_nested_ext.
    - destruct ck as [ct rv|k rv]; apply des_scalars_alloc; [now left|now right].
    - apply des_scalars_alloc. now right.
    - f_equal. unfold c'. now apply (des_ty_alloc no_types c data L ok HL Hok).
    - f_equal. unfold c'. rewrite des_protocol_alloc. apply des_protocol_ext. intros. now apply des_nested_ext.
    - apply andb_true_iff in Ht as [H1 H2]. f_equal. unfold c'. rewrite des_protocol_alloc. apply des_protocol_ext. intros.
      apply des_nested_ext. intros sub vals. apply field_loop_ext. intros [|i] wt' y q; auto.
  Qed.

  Hypothesis HP : forall k, forallb (fun fd => no_reserve (snd fd)) (m_fields (P k)) = true.

  Lemma des_fields_alloc f k data vals :
    des_fields P c' f k data vals = des_fields P c f k data vals.
  Proof.
    revert k data vals. induction f as [|f IH]; intros k data vals; cbn [des_fields]; [reflexivity|].
    apply field_loop_ext. intros i wt x p.
    destruct (nth_error (m_fields (P k)) i) as [fd|] eqn:E; [|reflexivity].
    apply des_field_alloc; [exact IH|].
    specialize (HP k). rewrite forallb_forall in HP. apply HP. eapply nth_error_In; eauto.
  Qed.
End Alloc.

Theorem des_pb_item_alloc P c L ok data fuel s k prior pos :
  alim c = Some L -> (forall n, n <= L -> ok n = alloc_ok c n) ->
  (forall k, forallb (fun fd => no_reserve (snd fd)) (m_fields (P k)) = true) ->
  des_pb_item P (with_alloc c ok) data fuel s k prior pos = des_pb_item P c data fuel s k prior pos.
Proof.
  intros HL Hok HP. unfold des_pb_item. rewrite des_protocol_alloc. apply des_protocol_ext. intros sz x p.
  apply des_nested_ext. intros sub vals.
  change (pb_icfg (with_alloc c ok)) with (with_alloc (pb_icfg c) ok).
  now apply (des_fields_alloc P (pb_icfg c) L ok).
Qed.
