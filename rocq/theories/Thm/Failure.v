(** C58: what a failed read leaves in the target. *)

From Coq Require Import List NArith ZArith Lia Bool Arith.
From Coq Require Import ZifyBool ZifyNat ZifyN.
From Verif Require Import Base.Bytes Model.Types Model.Machine Model.Varint Model.Out Model.In
  Spec.Leb128 Spec.Wire Spec.Torn Proofs.VarintP Proofs.OutP Proofs.InBase Proofs.InSafe
  Thm.Demo Thm.Output Thm.Input.
Import ListNotations.
Local Open Scope N_scope.

(** ** Proofs *)

Lemma vresize_resized d n l : resized d n l (vresize d n l).
Proof.
  unfold vresize. split.
  - rewrite app_length, firstn_length, repeat_length. lia.
  - intros i x H. destruct (Nat.lt_ge_cases i (length (firstn n l))) as [Hi|Hi].
    + left. rewrite nth_error_app1 in H by exact Hi.
      rewrite <- (firstn_skipn n l). now rewrite nth_error_app1.
    + right. rewrite nth_error_app2 in H by exact Hi.
      apply nth_error_In in H as HI. apply repeat_spec in HI.
      assert (HL : nth_error (repeat d (n - length l)) (i - length (firstn n l)) <> None) by congruence.
      apply nth_error_Some in HL. rewrite repeat_length, firstn_length in *. split; [lia|exact HI].
Qed.

Section Failing.
  Variables (G : tenv) (c : cfg) (data : list byte).
  Hypothesis (HG : wf_env G).

  Definition tears (t : ty) (f : val -> nat -> dres) : Prop :=
    forall prior pos r v p, wt G prior t = true -> f prior pos = (r, v, p) -> r <> ROk ->
      torn G c t prior v.

  Lemma des_many_tears f ms :
    Forall (fun m => tears m (f m)) ms ->
    forall priors pos r l p, forall2b (fun x m => wt G x m) priors ms = true ->
      des_many f ms priors pos = (r, l, p) -> r <> ROk -> torn_members G c ms priors l.
  Proof.
    induction 1 as [|m ms Hm _ IH]; intros priors pos r l p Hw E Hr; cbn [des_many] in E.
    { injection E as <- <- <-. congruence. }
    destruct priors as [|x priors]; [discriminate|]. cbn [forall2b tl] in *.
    apply andb_true_iff in Hw as [Hx Hw].
    destruct (f m x pos) as [[r1 v1] p1] eqn:E1.
    destruct r1; try (injection E as <- <- <-; apply torn_here; eapply Hm; eauto).
    destruct (des_many f ms priors p1) as [[r2 l2] p2] eqn:E2.
    injection E as <- <- <-. apply torn_later. eapply IH; eauto.
  Qed.

  Lemma des_all_tears f t : tears t f ->
    forall l pos r l' p, forallb (fun x => wt G x t) l = true ->
      des_all f l pos = (r, l', p) -> r <> ROk -> torn_members G c (repeat t (length l)) l l'.
  Proof.
    intro Hf. induction l as [|x l IH]; intros pos r l' p Hw E Hr; cbn [des_all] in E.
    { injection E as <- <- <-. congruence. }
    cbn [forallb] in Hw. apply andb_true_iff in Hw as [Hx Hw]. cbn [length repeat].
    destruct (f x pos) as [[r1 v1] p1] eqn:E1.
    destruct r1; try (injection E as <- <- <-; apply torn_here; eapply Hf; eauto).
    destruct (des_all f l p1) as [[r2 l2] p2] eqn:E2.
    injection E as <- <- <-. apply torn_later. eapply IH; eauto.
  Qed.

  Lemma des_bytes_same t n prior pos r l p :
    des_bytes c data t n prior pos = (r, l, p) -> r <> ROk -> l = prior.
  Proof.
    unfold des_bytes. destruct (_ =? _); [intros [= <- <- <-]; congruence|].
    destruct (_ <? _); [intros [= <- <- <-]; auto|].
    destruct (load _ _ _); [|intros [= <- <- <-]; auto].
    destruct (parse_all _ _ _ _); intros [= <- <- <-]; congruence.
  Qed.

  Lemma des_scalar_same w prior pos r n p :
    des_scalar c data w prior pos = (r, n, p) -> r <> ROk -> n = prior.
  Proof.
    unfold des_scalar. destruct (_ <? _); [intros [= <- <- <-]; auto|].
    destruct (load _ _ _); intros [= <- <- <-]; congruence.
  Qed.

  Lemma des_varint_same w zz prior pos r n p :
    des_varint w zz prior data pos = (r, n, p) -> r <> ROk -> n = prior.
  Proof.
    unfold des_varint. destruct (rest_of _ _); [|intros [= <- <- <-]; auto].
    destruct (varint_in _ _); intros [= <- <- <-]; congruence.
  Qed.

  Lemma des_elems_tears bulk f t :
    tears t f -> forall l pos r v p, forallb (fun x => wt G x t) l = true ->
    des_elems c data bulk f t l pos = (r, v, p) -> r <> ROk ->
    exists l', v = VSeq l' /\ (l' = l \/ (bulk = false /\ torn_members G c (repeat t (length l)) l l')).
  Proof.
    intros Hf l pos r v p Hw E Hr. unfold des_elems in E. destruct bulk.
    - destruct (des_bytes c data t (length l) l pos) as [[r1 l1] p1] eqn:E1.
      cbn [seq_res] in E. injection E as <- <- <-. exists l1. split; [reflexivity|]. left.
      eapply des_bytes_same; eauto.
    - destruct (des_all f l pos) as [[r1 l1] p1] eqn:E1. cbn [seq_res] in E. injection E as <- <- <-.
      exists l1. split; [reflexivity|]. right. split; [reflexivity|]. eapply des_all_tears; eauto.
  Qed.

  Lemma vec_resize_wt t n l r l' : wf G t = true ->
    vec_resize G c t n l = (r, l') -> forallb (fun x => wt G x t) l = true ->
    forallb (fun x => wt G x t) l' = true
    /\ match r with ROk => resized (dflt G t) (N.to_nat n) l l' | _ => l' = l end.
  Proof.
    intros Hwf E Hw. unfold vec_resize in E. destruct (over_limit c t n).
    { injection E as <- <-. auto. }
    destruct (_ || _); injection E as <- <-; [|auto].
    split; [|apply vresize_resized]. unfold vresize. rewrite forallb_app.
    apply andb_true_iff. split.
    - rewrite forallb_forall in *. intros x Hx. apply Hw.
      rewrite <- (firstn_skipn (N.to_nat n) l). apply in_app_iff. now left.
    - apply forallb_forall. intros x Hx. apply repeat_spec in Hx as ->. now apply wt_dflt.
  Qed.

  Lemma find_id_meta meta id i : find_id meta id = Some i ->
    exists b, nth_error meta i = Some (id, b).
  Proof.
    revert i. induction meta as [|[x b] meta IH]; intros i H; cbn [find_id] in H; [discriminate|].
    destruct (N.eqb_spec x id) as [->|].
    - injection H as <-. exists b. reflexivity.
    - destruct (find_id meta id) as [j|]; [|discriminate]. injection H as <-. cbn. now apply IH.
  Qed.

  Variable rec : nat -> val -> nat -> dres.
  Hypothesis Hrec : forall k, tears (TRec k) (rec k).

  Lemma des_ty_tears t : wf G t = true -> tears t (des_ty G c data rec t).
  Proof.
    induction t using ty_ind'; intros Hwf prior pos r v p Hw E Hr; cbn [des_ty] in E.
    - (* scalar *)
      destruct prior; try discriminate Hw.
      destruct (des_scalar c data w n pos) as [[r1 n1] p1] eqn:E1. cbn [nres] in E.
      injection E as <- <- <-. rewrite (des_scalar_same _ _ _ _ _ _ E1 Hr). constructor.
    - (* bool *)
      destruct (des_scalar c data 1 0 pos) as [[r1 n1] p1] eqn:E1.
      destruct r1; try (injection E as <- <- <-; constructor).
      destruct (n1 <? 2); injection E as <- <- <-; [congruence|constructor].
    - (* varint *)
      destruct prior; try discriminate Hw.
      destruct (des_varint w zz n data pos) as [[r1 n1] p1] eqn:E1. cbn [nres] in E.
      injection E as <- <- <-.
      assert (n1 = n) as -> by (eapply des_varint_same; eauto). constructor.
    - (* empty *) injection E as <- <- <-. congruence.
    - (* struct *)
      cbn [wf] in Hwf. rewrite !andb_true_iff in Hwf. destruct Hwf as [[_ Hms] _].
      destruct (negb (s_expl si) && is_empty (TStruct si ms)); [injection E as <- <- <-; congruence|].
      destruct (as_bytes c (TStruct si ms)) eqn:Eb.
      + destruct (des_bytes c data (TStruct si ms) 1 [prior] pos) as [[r1 l1] p1] eqn:E1.
        destruct r1; try (rewrite (des_bytes_same _ _ _ _ _ _ _ E1 ltac:(discriminate)) in E;
          injection E as <- <- <-; constructor).
        destruct l1 as [|x [|y l1]]; injection E as <- <- <-; congruence.
      + destruct prior; try discriminate Hw. cbn [as_seq wt] in *.
        destruct (des_many _ ms l pos) as [[r1 l1] p1] eqn:E1. cbn [seq_res] in E.
        injection E as <- <- <-. apply torn_struct; [exact Eb|].
        eapply des_many_tears; [|exact Hw|exact E1|exact Hr].
        rewrite forallb_forall in Hms. rewrite Forall_forall in *. auto.
    - (* named *) eapply Hrec; eauto.
    - (* array *)
      cbn [wf] in Hwf. apply andb_true_iff in Hwf as [_ Hwf]. specialize (IHt Hwf).
      destruct prior; try discriminate Hw. cbn [as_seq wt] in *. apply andb_true_iff in Hw as [_ Hw].
      destruct (des_elems_tears _ _ _ IHt _ _ _ _ _ Hw E Hr) as (l' & -> & [->|[Hb HT]]); [constructor|].
      now apply torn_array.
    - (* tuple *)
      cbn [wf] in Hwf. destruct prior; try discriminate Hw. cbn [as_seq wt] in *.
      destruct (des_many _ ts l pos) as [[r1 l1] p1] eqn:E1. cbn [seq_res] in E.
      injection E as <- <- <-. apply torn_tuple.
      eapply des_many_tears; [|exact Hw|exact E1|exact Hr].
      rewrite forallb_forall in Hwf. rewrite Forall_forall in *. auto.
    - (* vector *)
      cbn [wf] in Hwf. apply andb_true_iff in Hwf as [_ Hwf]. specialize (IHt Hwf).
      destruct prior; try discriminate Hw. cbn [as_seq wt] in *.
      assert (Hsame : resized (dflt G t) (length l) l l) by (split; auto).
      assert (HS : sz_of c s <> SzNone ->
              match des_size c data (sz_of c s) pos with
              | (ROk, n, pos') =>
                match vec_resize G c t n l with
                | (ROk, l) => des_elems c data (as_bytes c t && cg) (des_ty G c data rec t) t l pos'
                | (r, l) => (r, VSeq l, pos')
                end
              | (r, _, pos') => (r, VSeq l, pos')
              end = (r, v, p) -> torn G c (TVec s cg t) (VSeq l) v).
      { intros Hs E'. destruct (des_size c data (sz_of c s) pos) as [[r1 n1] p1].
        destruct r1; try (injection E' as <- <- <-; constructor).
        destruct (vec_resize G c t n1 l) as [r2 l2] eqn:E2.
        destruct (vec_resize_wt _ _ _ _ _ Hwf E2 Hw) as [Hw2 Hre].
        destruct r2; try (injection E' as <- <- <-; subst l2; constructor).
        destruct (des_elems_tears _ _ _ IHt _ _ _ _ _ Hw2 E' Hr) as (l' & -> & [->|[Hb HT]]).
        - eapply torn_resized; eauto.
        - eapply torn_vec; eauto. congruence. }
      destruct (sz_of c s) eqn:Es; [| |apply HS; [discriminate|exact E]..].
      all: try (apply HS; [discriminate|exact E]).
      destruct (des_elems_tears _ _ _ IHt _ _ _ _ _ Hw E Hr) as (l' & -> & [->|[Hb HT]]); [constructor|].
      eapply torn_vec; eauto.
    - (* associative *)
      destruct prior; try discriminate Hw.
      destruct (match sz_of c s with SzNone => _ | _ => _ end) as [[r1 n1] p1].
      destruct r1; try (injection E as <- <- <-; constructor).
      destruct (des_assoc _ _ _ _ _ _) as [[r2 l2] p2]. cbn [seq_res] in E. injection E as <- <- <-.
      apply torn_assoc.
    - (* optional *)
      cbn [wf] in Hwf. specialize (IHt Hwf).
      destruct (des_flag c data pos) as [[r1 n1] p1]. destruct r1; try (injection E as <- <- <-; constructor).
      destruct n1; [injection E as <- <- <-; congruence|].
      unfold des_inplace in E. destruct dc.
      + destruct prior; try discriminate Hw; cbn [opt_cur wt] in *.
        * destruct (des_ty G c data rec t (dflt G t) p1) as [[r2 x2] p2] eqn:E2.
          injection E as <- <- <-. apply torn_opt_new. eapply IHt; eauto. now apply wt_dflt.
        * destruct (des_ty G c data rec t prior p1) as [[r2 x2] p2] eqn:E2.
          injection E as <- <- <-. apply torn_opt. eapply IHt; eauto.
      + destruct (des_ty G c data rec t (dflt G t) p1) as [[r2 x2] p2].
        destruct r2; injection E as <- <- <-; [congruence|constructor..].
    - (* optional_ptr *)
      destruct (des_flag c data pos) as [[r1 n1] p1]. destruct r1; try (injection E as <- <- <-; constructor).
      destruct n1; [injection E as <- <- <-; congruence|].
      unfold des_ptr in E. destruct (des_ty G c data rec t (dflt G t) p1) as [[r2 x2] p2].
      destruct r2; injection E as <- <- <-; [congruence|constructor..].
    - (* owning pointer *)
      unfold des_ptr in E. destruct (des_ty G c data rec t (dflt G t) pos) as [[r2 x2] p2].
      destruct r2; injection E as <- <- <-; [congruence|constructor..].
    - (* variant *)
      cbn [wf] in Hwf. rewrite !andb_true_iff in Hwf.
      assert (Hal : forallb (wf G) alts = true) by tauto. clear Hwf.
      destruct (des_id c data ik pos) as [[r1 id] p1]. destruct r1; try (injection E as <- <- <-; constructor).
      destruct (find_id meta id) as [i|] eqn:Ei; [|injection E as <- <- <-; constructor].
      destruct (find_id_meta _ _ _ Ei) as [b Hb]. rewrite Hb in E.
      assert (HP : forall t', In t' alts -> tears t' (des_ty G c data rec t')).
      { intros t' Ht'. rewrite forallb_forall in Hal. rewrite Forall_forall in H. auto. }
      assert (HQ : forall t', In t' alts -> wf G t' = true) by (now apply forallb_forall).
      set (pick := fix pick (l : list ty) (j : nat) {struct l} : dres :=
           match l, j with
           | t' :: _, O => des_inplace b (des_ty G c data rec t') (VAlt i) (active i prior) (dflt G t') prior p1
           | _ :: l', S j' => pick l' j'
           | [], _ => (RUB, prior, p1)
           end) in E.
      assert (Ep : forall l j, pick l j =
           match nth_error l j with
           | Some t' => des_inplace b (des_ty G c data rec t') (VAlt i) (active i prior) (dflt G t') prior p1
           | None => (RUB, prior, p1)
           end).
      { induction l as [|t' l IH]; intros [|j]; try reflexivity. cbn. apply IH. }
      rewrite Ep in E. clear pick Ep.
      destruct (nth_error alts i) as [t'|] eqn:Et; [|injection E as <- <- <-; constructor].
      assert (Hin : In t' alts) by (eapply nth_error_In; eauto).
      specialize (HP t' Hin). specialize (HQ t' Hin).
      unfold des_inplace in E. destruct b.
      + destruct (active i prior) as [x|] eqn:Ea.
        * unfold active in Ea. destruct prior; try discriminate Ea.
          destruct (Nat.eqb_spec i i0) as [<-|]; [|discriminate]. injection Ea as ->.
          cbn [wt] in Hw. rewrite Et in Hw.
          destruct (des_ty G c data rec t' x p1) as [[r2 y] p2] eqn:E2. injection E as <- <- <-.
          eapply torn_alt; eauto.
        * destruct (des_ty G c data rec t' (dflt G t') p1) as [[r2 y] p2] eqn:E2. injection E as <- <- <-.
          eapply torn_alt_new; eauto; [|eapply HP; eauto; now apply wt_dflt].
          intros x ->. cbn [active] in Ea. rewrite Nat.eqb_refl in Ea. discriminate.
      + destruct (des_ty G c data rec t' (dflt G t') p1) as [[r2 y] p2].
        destruct r2; injection E as <- <- <-; [congruence|constructor..].
    - (* bitset *)
      unfold des_bitset in E. destruct (_ <? _); [injection E as <- <- <-; constructor|].
      destruct (load _ _ _); injection E as <- <- <-; [congruence|constructor].
    - (* view *)
      destruct k as [s|n|].
      + destruct (des_size c data (sz_of c s) pos) as [[r1 n1] p1].
        destruct r1; try (injection E as <- <- <-; constructor).
        destruct (sz_of c s); repeat match type of E with
        | (if ?b then _ else _) = _ => destruct b
        | match ?m with _ => _ end = _ => destruct m
        end; injection E as <- <- <-; try congruence; constructor.
      + destruct (_ <? _); [injection E as <- <- <-; constructor|].
        destruct (load _ _ _); injection E as <- <- <-; [congruence|constructor].
      + destruct (load _ _ _); injection E as <- <- <-; [congruence|constructor].
    - (* span *)
      cbn [wf] in Hwf. apply andb_true_iff in Hwf as [_ Hwf]. specialize (IHt Hwf).
      destruct prior; try discriminate Hw. cbn [as_seq wt] in *.
      assert (HS : sz_of c s <> SzNone ->
              match des_size c data (sz_of c s) pos with
              | (ROk, n, pos') =>
                if N.of_nat (length l) <? n then (RErr result_out_of_range, VSeq l, pos')
                else des_elems c data (as_bytes c t) (des_ty G c data rec t) t (firstn (N.to_nat n) l) pos'
              | (r, _, pos') => (r, VSeq l, pos')
              end = (r, v, p) -> torn G c (TSpan s t) (VSeq l) v).
      { intros Hs E'. destruct (des_size c data (sz_of c s) pos) as [[r1 n1] p1].
        destruct r1; try (injection E' as <- <- <-; constructor).
        destruct (_ <? n1); [injection E' as <- <- <-; constructor|].
        assert (Hw2 : forallb (fun x => wt G x t) (firstn (N.to_nat n1) l) = true).
        { rewrite forallb_forall in *. intros x Hx. apply Hw.
          rewrite <- (firstn_skipn (N.to_nat n1) l). apply in_app_iff. now left. }
        destruct (des_elems_tears _ _ _ IHt _ _ _ _ _ Hw2 E' Hr) as (l' & -> & [->|[Hb HT]]).
        - now apply torn_shrunk.
        - eapply torn_span; eauto. congruence. }
      destruct (sz_of c s) eqn:Es; try (apply HS; [discriminate|exact E]).
      destruct (des_elems_tears _ _ _ IHt _ _ _ _ _ Hw E Hr) as (l' & -> & [->|[Hb HT]]); [constructor|].
      apply (torn_span _ _ s t (length l)); rewrite ?firstn_all; auto.
  Qed.
End Failing.

Lemma des_tears G c data fuel t : wf_env G -> wf G t = true -> tears G c t (des G c data fuel t).
Proof.
  intros HG. assert (HR : forall fuel k, tears G c (TRec k) (des_rec G c data fuel k)).
  { clear - HG. intro fuel0. induction fuel0 as [|f IH]; intros k prior pos r v p Hw E Hr; cbn [des_rec] in E.
    { injection E as <- <- <-. constructor. }
    destruct prior; try discriminate Hw. cbn [as_seq wt] in *.
    destruct (des_many _ _ l pos) as [[r1 l1] p1] eqn:E1. cbn [seq_res] in E. injection E as <- <- <-.
    apply torn_rec. eapply des_many_tears; [|exact Hw|exact E1|exact Hr].
    apply Forall_forall. intros m Hm. apply des_ty_tears; auto.
    destruct (HG k) as [Hk _]. rewrite forallb_forall in Hk. now apply Hk. }
  intro Hwf. apply des_ty_tears; auto.
Qed.

Lemma des_many_stops (f : ty -> val -> nat -> dres) ts :
  forall priors pos r vs p, length priors = length ts ->
    des_many f ts priors pos = (r, vs, p) -> r <> ROk ->
    exists done t rest x y pk,
      ts = done ++ t :: rest /\ nth_error priors (length done) = Some x
      /\ des_many f done (firstn (length done) priors) pos = (ROk, firstn (length done) vs, pk)
      /\ f t x pk = (r, y, p)
      /\ vs = firstn (length done) vs ++ y :: skipn (S (length done)) priors
      /\ length (firstn (length done) vs) = length done.
Proof.
  induction ts as [|t ts IH]; intros priors pos r vs p HL E Hr; cbn [des_many] in E.
  { injection E as <- <- <-. congruence. }
  destruct priors as [|x priors]; [discriminate|]. cbn [tl] in E. injection HL as HL.
  destruct (f t x pos) as [[r1 v1] p1] eqn:E1.
  destruct r1;
    try (injection E as <- <- <-; exists [], t, ts, x, v1, pos;
         split; [reflexivity|]; split; [reflexivity|]; split; [reflexivity|];
         split; [exact E1|]; split; reflexivity).
  destruct (des_many f ts priors p1) as [[r2 l2] p2] eqn:E2. injection E as <- <- <-.
  destruct (IH _ _ _ _ _ HL E2 Hr) as (done & t' & rest & x' & y & pk & -> & H1 & H2 & H3 & H4 & H5).
  exists (t :: done), t', rest, x', y, pk. cbn [length app firstn skipn nth_error des_many tl].
  split; [reflexivity|]. split; [exact H1|]. rewrite E1, H2.
  split; [reflexivity|]. split; [exact H3|]. split; [exact (f_equal (cons v1) H4)|]. now rewrite H5.
Qed.

Lemma forall2b_length {A B} (f : A -> B -> bool) l m : forall2b f l m = true -> length l = length m.
Proof.
  revert m. induction l as [|x l IH]; intros [|y m] H; try discriminate; [reflexivity|].
  cbn in *. apply andb_true_iff in H as [_ H]. f_equal. now apply IH.
Qed.

(** ** Theorems *)

(** The read reported a failure. *)
Definition failed (r : res) : Prop := (exists e, r = RErr e) \/ r = RThrow.

(** C58: after a failed call the targets before the failing one hold what was read, the failing
    one is torn in a way its type permits, and the targets after it are what they were. *)
Theorem in_failure_targets G c data ts fuel priors pos r vs p :
  wf_env G -> wf G (TTuple ts) = true -> wt G (VSeq priors) (TTuple ts) = true ->
  in_call G c data fuel ts priors pos = (r, vs, p) -> failed r ->
  exists done t rest x y pk,
    ts = done ++ t :: rest
    /\ in_call G c data fuel done (firstn (length done) priors) pos = (ROk, firstn (length done) vs, pk)
    /\ nth_error priors (length done) = Some x /\ torn G c t x y
    /\ vs = firstn (length done) vs ++ y :: skipn (S (length done)) priors
    /\ length (firstn (length done) vs) = length done.
Proof.
  intros HG Hwf Hw E Hf.
  assert (Hr : r <> ROk) by (destruct Hf as [[e ->] | ->]; discriminate).
  cbn [wf wt] in *. unfold in_call in *.
  destruct (des_many_stops _ _ _ _ _ _ _ (forall2b_length _ _ _ Hw) E Hr)
    as (done & t & rest & x & y & pk & -> & H1 & H2 & H3 & H4 & H5).
  exists done, t, rest, x, y, pk. split; [reflexivity|]. split; [exact H2|]. split; [exact H1|].
  split; [|auto].
  rewrite forallb_app in Hwf. cbn [forallb] in Hwf. rewrite !andb_true_iff in Hwf.
  eapply (des_tears G c data fuel t HG); [tauto| |exact H3|exact Hr].
  clear - H1 Hw. revert priors H1 Hw. induction done as [|d done IH]; intros [|x' priors] H1 Hw;
    try discriminate; cbn in *; apply andb_true_iff in Hw as [Ha Hb].
  - now injection H1 as ->.
  - eapply IH; eauto.
Qed.

(** Types whose objects survive a failed read: numbers, bit sets, views, owning pointers,
    optionals of and variants with types that are not default constructible, objects copied as
    bytes, and arrays of them. *)
Definition all_or_nothing (c : cfg) (t : ty) : bool :=
  match t with
  | TScalar _ _ | TBool | TVarint _ _ _ | TEmpty | TBitset _ | TView _ | TOptPtr _ | TPtr _ => true
  | TStruct _ _ => as_bytes c t
  | TArray _ t' => as_bytes c t'
  | TOpt dc _ => negb dc
  | TVariant _ meta _ => forallb (fun m => negb (snd m)) meta
  | _ => false
  end.

Theorem in_failure_unchanged G c data t fuel prior pos r v p :
  wf_env G -> wf G t = true -> wt G prior t = true ->
  all_or_nothing c t = true ->
  des G c data fuel t prior pos = (r, v, p) -> failed r -> v = prior.
Proof.
  intros HG Hwf Hw Ha E Hf.
  assert (Hr : r <> ROk) by (destruct Hf as [[e ->] | ->]; discriminate).
  pose proof (des_tears G c data fuel t HG Hwf prior pos r v p Hw E Hr) as HT.
  assert (HM : forall meta i id, nth_error meta i = Some (id, true) ->
               forallb (fun m : N * bool => negb (snd m)) meta = true -> False).
  { intros meta i id Hn Hall. apply nth_error_In in Hn. rewrite forallb_forall in Hall.
    specialize (Hall _ Hn). discriminate. }
  inversion HT; subst; try reflexivity; cbn [all_or_nothing negb] in Ha; try discriminate Ha;
    try congruence; exfalso; eauto.
Qed.

(** Not so for containers and for optionals, variants and classes read in place: a failed read
    of a vector has discarded its elements. *)
Theorem in_failure_unchanged_refuted :
  exists c data t prior r v p,
    wf node_env t = true /\ wt node_env prior t = true
    /\ des node_env c data 0 t prior 0 = (r, v, p) /\ failed r
    /\ exists x, prior = VSeq [x; x; x] /\ v = VSeq [x].
Proof.
  exists vec_cfg, (map n2b [1; 0; 0; 0; 5]), (TVec None true (TScalar 2 false)), (VSeq [VN 7; VN 7; VN 7]).
  eexists _, _, _. split; [reflexivity|]. split; [reflexivity|]. split; [vm_compute; reflexivity|].
  split; [left; eexists; reflexivity|]. exists (VN 7). split; reflexivity.
Qed.

(** A failed read of a set or map has discarded its elements too: unless the announced size
    itself could not be read, what remains depends on the input only. *)
Theorem in_failure_assoc G c data s k t fuel pos :
  sz_of c s <> SzNone ->
  (exists r p, r <> ROk /\ forall prior, des G c data fuel (TAssoc s k t) prior pos = (r, prior, p))
  \/ (exists x, forall prior, des G c data fuel (TAssoc s k t) prior pos = x).
Proof.
  intro Hs. unfold des. cbn [des_ty].
  assert (E : forall prior, match sz_of c s with
              | SzNone => (ROk, N.of_nat (length (as_seq prior)), pos)
              | sz => des_size c data sz pos
              end = des_size c data (sz_of c s) pos) by (intro; destruct (sz_of c s); [congruence..|]; reflexivity).
  destruct (des_size c data (sz_of c s) pos) as [[r n] p] eqn:Ed.
  destruct r; try (left; eexists _, p; split; [|intro prior; rewrite E; reflexivity]; discriminate).
  right. eexists. intro prior. rewrite E. reflexivity.
Qed.

(** Non-vacuity: the second of three targets fails, in the middle of a struct of a vector. *)
Example in_failure_nontrivial :
  let inner := TTuple [TScalar 1 false; TOpt true (TScalar 2 false)] in
  let ts := [TScalar 1 false; TVec None true inner; TBitset 11] in
  let old := VSeq [VN 1; VSome (VN 2)] in
  let priors := [VN 5; VSeq [old; old; old]; VBits (repeat true 11)] in
  wf_env node_env /\ wf node_env (TTuple ts) = true /\ wt node_env (VSeq priors) (TTuple ts) = true
  /\ in_call node_env vec_cfg (map n2b [9; 2; 0; 0; 0; 8; 1; 4; 3; 6; 1; 4]) 0 ts priors 0
     = (RErr result_out_of_range,
        [VN 9; VSeq [VSeq [VN 8; VSome (VN 0x304)]; VSeq [VN 6; VSome (VN 2)]]; VBits (repeat true 11)], 11%nat).
Proof.
  cbv zeta. split; [apply demo_wf_env|]. repeat split; vm_compute; reflexivity.
Qed.

Example in_failure_unchanged_nontrivial :
  let t := TVariant (IdInt 1) [(1, false); (2, false)] [TScalar 1 false; TVec None true (TScalar 2 false)] in
  let prior := VAlt 1 (VSeq [VN 7]) in
  wf node_env t = true /\ wt node_env prior t = true /\ all_or_nothing vec_cfg t = true
  /\ des node_env vec_cfg (map n2b [2; 2; 0; 0; 0; 8; 1; 4]) 0 t prior 0
     = (RErr result_out_of_range, prior, 5%nat).
Proof. cbv zeta. repeat split; vm_compute; reflexivity. Qed.

(** The set is cleared although only its second element was missing. *)
Example in_failure_assoc_nontrivial :
  let t := TAssoc None map_kind (TTuple [TScalar 1 false; TBool]) in
  let prior := VSeq [VSeq [VN 7; VN 1]; VSeq [VN 8; VN 1]] in
  sz_of vec_cfg None <> SzNone /\ wt node_env prior t = true
  /\ des node_env vec_cfg (map n2b [2; 0; 0; 0; 3; 0]) 0 t prior 0
     = (RErr result_out_of_range, VSeq [VSeq [VN 3; VN 0]], 6%nat).
Proof. cbv zeta. split; [discriminate|]. repeat split; vm_compute; reflexivity. Qed.
