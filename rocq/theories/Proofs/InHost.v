(** Reading does not depend on the host, nor on whether memory is copied in bulk. *)

From Coq Require Import List NArith ZArith Lia Bool Arith.
From Coq Require Import ZifyBool ZifyNat ZifyN.
From Verif Require Import Base.Bytes Model.Types Model.Machine Model.Varint Model.Out Model.In
  Spec.Leb128 Spec.Wire Proofs.VarintP Proofs.OutP Proofs.InBase Proofs.InSafe Proofs.InLocal.
Import ListNotations.
Local Open Scope N_scope.

(** Member-wise interpretation of the bytes of a fixed layout object (specification): scalars
    in the wire byte order, members one after another. *)
Definition wval (o : wfmt) (l : list byte) : N := if little o then le_val l else le_val (rev l).

Fixpoint wparse (o : wfmt) (t : ty) (l : list byte) : option val :=
  match t with
  | TScalar _ _ => Some (VN (wval o l))
  | TBool => let n := wval o l in if n <? 2 then Some (VN n) else None
  | TStruct _ ms =>
      match parse_many (wparse o) ms l with Some vs => Some (VSeq vs) | None => None end
  | TArray n t' =>
      match parse_all (wparse o t') (bsize t') n l with
      | Some vs => Some (VSeq vs) | None => None
      end
  | _ => None
  end.

Lemma scalar_val_wval c l : scalar_val c l = wval (fmt_of c) l.
Proof.
  unfold scalar_val, hostval, wval, fmt_of. cbn [little].
  destruct (swap c), (host_le c); cbn [xorb]; rewrite ?rev_involutive; reflexivity.
Qed.

Lemma hostval_wval c l : swap c = false -> hostval c l = wval (fmt_of c) l.
Proof.
  unfold hostval, wval, fmt_of. cbn [little]. intros ->. now destruct (host_le c).
Qed.

Lemma wval_1 o l : length l = 1%nat -> wval o l = le_val l.
Proof.
  destruct l as [|b [|b' l]]; try discriminate. unfold wval. now destruct (little o).
Qed.

Lemma hostval_1 c l : length l = 1%nat -> hostval c l = le_val l.
Proof.
  destruct l as [|b [|b' l]]; try discriminate. unfold hostval. now destruct (host_le c).
Qed.

Lemma parse_all_ext f g w n l :
  (forall l, length l = w -> f l = g l) -> length l = (n * w)%nat ->
  parse_all f w n l = parse_all g w n l.
Proof.
  intro H. revert l; induction n as [|n IH]; intros l Hl; cbn [parse_all]; [reflexivity|].
  cbn [Nat.mul] in Hl. rewrite H by (rewrite firstn_length; lia).
  rewrite IH by (rewrite skipn_length; lia). reflexivity.
Qed.

Lemma parse_many_ext (f g : ty -> list byte -> option val) ms l :
  Forall (fun m => forall l, length l = bsize m -> f m l = g m l) ms ->
  length l = sum (map bsize ms) -> parse_many f ms l = parse_many g ms l.
Proof.
  intro H. revert l; induction H as [|m ms Hm _ IH]; intros l Hl; cbn [parse_many]; [reflexivity|].
  cbn [map sum fold_right] in Hl. fold (sum (map bsize ms)) in Hl.
  rewrite Hm by (rewrite firstn_length; lia).
  rewrite IH by (rewrite skipn_length; lia). reflexivity.
Qed.

(** Types laid out in memory as on the wire. *)
Definition flat (t : ty) : Prop := bs t = true /\ plain t = true /\ is_empty t = false.

Lemma flat_array n t : flat (TArray n t) -> flat t.
Proof.
  intros (H1 & H2 & _). unfold plain in *. cbn [bs tall elem_ok] in *.
  apply andb_true_iff in H2 as [H2 H3]. apply negb_true_iff in H2. repeat split; auto.
Qed.

Lemma flat_member si ms m : flat (TStruct si ms) -> In m ms -> flat m.
Proof.
  intros (H1 & H2 & _) Hin. unfold plain in *. cbn [bs tall elem_ok andb] in *.
  rewrite !andb_true_iff in H1. destruct H1 as [[[[[_ _] Hall] _] He] _].
  rewrite forallb_forall in *. repeat split; auto.
  apply negb_true_iff in He. destruct (is_empty m) eqn:E; [|reflexivity].
  assert (existsb is_empty ms = true) by (apply existsb_exists; eauto). congruence.
Qed.

Lemma flat_sum si ms : flat (TStruct si ms) -> sum (map bsize ms) = s_size si.
Proof.
  intros (H1 & _). cbn [bs] in H1. rewrite !andb_true_iff in H1.
  destruct H1 as [[[[[_ _] _] H] _] _]. now apply Nat.eqb_eq.
Qed.

Lemma objparse_wparse G c t : flat t -> wf G t = true -> as_bytes c t = true ->
  forall l, length l = bsize t -> objparse c t l = wparse (fmt_of c) t l.
Proof.
  induction t using ty_ind'; intros Hf Hw Ha l Hl; try (destruct Hf as (? & _); discriminate);
    cbn [objparse wparse bsize] in *.
  - f_equal. f_equal. unfold as_bytes in Ha. cbn [eibs bs] in Ha.
    destruct b; cbn [orb] in Ha.
    + cbn [wf] in Hw. apply andb_true_iff in Hw as [_ Hw]. cbn [negb orb] in Hw.
      apply Nat.eqb_eq in Hw. subst w. now rewrite hostval_1, wval_1.
    + apply andb_true_iff in Ha as [Ha _]. apply hostval_wval. now apply negb_true_iff.
  - unfold as_bytes in Ha. cbn [eibs bs orb] in Ha. apply andb_true_iff in Ha as [Ha _].
    rewrite hostval_wval; [reflexivity|]. now apply negb_true_iff.
  - destruct Hf as (_ & _ & ?). discriminate.
  - rewrite (parse_many_ext (objparse c) (wparse (fmt_of c))); [reflexivity|..].
    + rewrite Forall_forall in *. intros m Hin.
      pose proof (flat_member _ _ _ Hf Hin) as Hm.
      assert (Hsw : swap c = false).
      { unfold as_bytes in Ha. cbn [eibs orb] in Ha. apply andb_true_iff in Ha as [Ha _].
        now apply negb_true_iff. }
      apply H; auto.
      * cbn [wf] in Hw. rewrite !andb_true_iff in Hw. destruct Hw as [[_ Hw] _].
        rewrite forallb_forall in Hw. auto.
      * unfold as_bytes. rewrite Hsw. cbn [negb andb]. destruct Hm as (-> & _). apply orb_true_r.
    + now rewrite (flat_sum _ _ Hf).
  - rewrite (parse_all_ext (objparse c t) (wparse (fmt_of c) t)); [reflexivity|..].
    + cbn [wf] in Hw. apply andb_true_iff in Hw as [_ Hw].
      apply IHt; auto. eapply flat_array; eauto.
    + exact Hl.
Qed.

Definition okimp {A} (x x' : res * A * nat) : Prop :=
  forall v p, x = (ROk, v, p) -> x' = (ROk, v, p).

Lemma window_window {A} (l : list A) p n q m :
  (q + m <= n)%nat -> window (window l p n) q m = window l (p + q) m.
Proof.
  intro H. unfold window. rewrite skipn_firstn_comm, firstn_firstn, skipn_skipn.
  f_equal. lia.
Qed.

Section Flat.
  Variables (G : tenv) (c : cfg) (data : list byte) (rec : nat -> val -> nat -> dres).
  Hypothesis (Hsm : small data).
  Notation o := (fmt_of c).

  (** Reading [n] bytes with the interpretation [f]. *)
  Definition reads_as {A} (f : list byte -> option A) (n : nat) (pos : nat) (x : res * A * nat) : Prop :=
    forall v p, x = (ROk, v, p) <->
      (pos + n <= length data)%nat /\ f (window data pos n) = Some v /\ p = (pos + n)%nat.

  Lemma reads_as_fail {A} f n pos (r : res) (v : A) p :
    r <> ROk -> ((pos + n <= length data)%nat -> f (window data pos n) = None) ->
    reads_as f n pos (r, v, p).
  Proof.
    intros Hr Hf v' p'. split; [congruence|]. intros (H1 & H2 & _). rewrite Hf in H2 by lia. discriminate.
  Qed.

  Lemma reads_as_ok {A} f n pos (v : A) p :
    (pos + n <= length data)%nat -> f (window data pos n) = Some v -> p = (pos + n)%nat ->
    reads_as f n pos (ROk, v, p).
  Proof. intros H1 H2 H3 v' p'. split; [intros [= <- <-]; auto|intros (_ & H & ->)]. congruence. Qed.

  Lemma window_split {A} (l : list A) p a b :
    (p + (a + b) <= length l)%nat ->
    firstn a (window l p (a + b)) = window l p a /\ skipn a (window l p (a + b)) = window l (p + a) b.
  Proof.
    intro H. split.
    - unfold window. rewrite firstn_firstn. f_equal. lia.
    - pose proof (window_window l p (a + b) a b ltac:(lia)) as W. unfold window at 1 in W.
      rewrite firstn_all2 in W; [exact W|]. unfold window.
      rewrite skipn_length, firstn_length, skipn_length. lia.
  Qed.

  Lemma des_many_flat (f : ty -> val -> nat -> dres) (g : ty -> list byte -> option val) ms :
    Forall (fun m => forall prior pos, (pos <= length data)%nat -> wt G prior m = true ->
              reads_as (g m) (bsize m) pos (f m prior pos)) ms ->
    forall l pos, (pos <= length data)%nat -> forall2b (fun x m => wt G x m) l ms = true ->
      reads_as (parse_many g ms) (sum (map bsize ms)) pos (des_many f ms l pos).
  Proof.
    induction 1 as [|m ms Hm _ IH]; intros l pos Hp Hw; cbn [des_many parse_many map sum fold_right].
    - apply reads_as_ok; [lia|reflexivity|lia].
    - fold (sum (map bsize ms)). destruct l as [|x l]; [discriminate|]. cbn [forall2b tl] in *.
      apply andb_true_iff in Hw as [Hx Hw].
      specialize (Hm x pos Hp Hx). destruct (f m x pos) as [[r v] p] eqn:E.
      assert (K : r = ROk \/ r <> ROk) by (destruct r; auto; right; discriminate).
      destruct K as [->|Hr].
      + destruct (proj1 (Hm v p) eq_refl) as (H1 & H2 & ->).
        specialize (IH l (pos + bsize m)%nat H1 Hw).
        destruct (des_many f ms l (pos + bsize m)) as [[r' vs] p'].
        intros v' q. split.
        * intros [= -> <- ->]. destruct (proj1 (IH vs q) eq_refl) as (I1 & I2 & ->).
          split; [lia|]. destruct (window_split data pos (bsize m) (sum (map bsize ms)) ltac:(lia)) as [W1 W2].
          rewrite W1, W2, H2, I2. split; [reflexivity|lia].
        * intros (J1 & J2 & ->).
          destruct (window_split data pos (bsize m) (sum (map bsize ms)) ltac:(lia)) as [W1 W2].
          rewrite W1, W2, H2 in J2.
          destruct (parse_many g ms (window data (pos + bsize m) (sum (map bsize ms)))) as [vs'|] eqn:Ep;
            [|discriminate]. injection J2 as <-.
          assert (E' : (r', vs, p') = (ROk, vs', (pos + bsize m + sum (map bsize ms))%nat))
            by (apply IH; repeat split; auto; lia).
          injection E' as -> -> ->. f_equal. lia.
      + assert (F : (pos + bsize m <= length data)%nat -> g m (window data pos (bsize m)) = None).
        { intro Hl. destruct (g m (window data pos (bsize m))) as [v'|] eqn:Eg; [|reflexivity].
          exfalso. assert (E' : (r, v, p) = (ROk, v', (pos + bsize m)%nat)) by (apply Hm; auto).
          congruence. }
        destruct r; try congruence;
        (apply reads_as_fail; [discriminate|]; intro Hl;
         destruct (window_split data pos (bsize m) (sum (map bsize ms)) ltac:(lia)) as [W1 W2];
         rewrite W1, F by lia; reflexivity).
  Qed.

  Lemma des_all_flat (f : val -> nat -> dres) (g : list byte -> option val) t :
    (forall prior pos, (pos <= length data)%nat -> wt G prior t = true ->
              reads_as g (bsize t) pos (f prior pos)) ->
    forall l pos, (pos <= length data)%nat -> forallb (fun x => wt G x t) l = true ->
      reads_as (parse_all g (bsize t) (length l)) (length l * bsize t) pos (des_all f l pos).
  Proof.
    intros Hf. induction l as [|x l IH]; intros pos Hp Hw; cbn [des_all parse_all length Nat.mul].
    - apply reads_as_ok; [lia|reflexivity|lia].
    - cbn [forallb] in *. apply andb_true_iff in Hw as [Hx Hw].
      specialize (Hf x pos Hp Hx). destruct (f x pos) as [[r v] p] eqn:E.
      assert (K : r = ROk \/ r <> ROk) by (destruct r; auto; right; discriminate).
      destruct K as [->|Hr].
      + destruct (proj1 (Hf v p) eq_refl) as (H1 & H2 & ->).
        specialize (IH (pos + bsize t)%nat H1 Hw).
        destruct (des_all f l (pos + bsize t)) as [[r' vs] p'].
        intros v' q. split.
        * intros [= -> <- ->]. destruct (proj1 (IH vs q) eq_refl) as (I1 & I2 & ->).
          split; [lia|]. destruct (window_split data pos (bsize t) (length l * bsize t) ltac:(lia)) as [W1 W2].
          rewrite W1, W2, H2, I2. split; [reflexivity|lia].
        * intros (J1 & J2 & ->).
          destruct (window_split data pos (bsize t) (length l * bsize t) ltac:(lia)) as [W1 W2].
          rewrite W1, W2, H2 in J2.
          destruct (parse_all g _ _ (window data (pos + bsize t) _)) as [vs'|] eqn:Ep;
            [|discriminate]. injection J2 as <-.
          assert (E' : (r', vs, p') = (ROk, vs', (pos + bsize t + length l * bsize t)%nat))
            by (apply IH; repeat split; auto; lia).
          injection E' as -> -> ->. f_equal. lia.
      + assert (F : (pos + bsize t <= length data)%nat -> g (window data pos (bsize t)) = None).
        { intro Hl. destruct (g (window data pos (bsize t))) as [v'|] eqn:Eg; [|reflexivity].
          exfalso. assert (E' : (r, v, p) = (ROk, v', (pos + bsize t)%nat)) by (apply Hf; auto).
          congruence. }
        destruct r; try congruence;
        (apply reads_as_fail; [discriminate|]; intro Hl;
         destruct (window_split data pos (bsize t) (length l * bsize t) ltac:(lia)) as [W1 W2];
         rewrite W1, F by lia; reflexivity).
  Qed.

  Lemma window_len {A} (l : list A) p n : (p + n <= length l)%nat -> length (window l p n) = n.
  Proof. intro H. unfold window. rewrite firstn_length, skipn_length. lia. Qed.

  Lemma des_bytes_flat t l pos :
    flat t -> wf G t = true -> as_bytes c t = true -> (pos <= length data)%nat ->
    reads_as (parse_all (wparse o t) (bsize t) (length l)) (length l * bsize t) pos
      (des_bytes c data t (length l) l pos).
  Proof.
    intros Hf Hw Ha Hp. rewrite des_bytes_eq by assumption.
    pose proof (bs_bsize_pos G t Hw (proj1 Hf)) as Hb.
    destruct (Nat.eqb_spec (length l * bsize t) 0) as [E|E].
    - destruct l; [|cbn in E; lia]. apply reads_as_ok; cbn; try reflexivity; lia.
    - destruct (Nat.leb_spec (pos + length l * bsize t) (length data)) as [Hl|Hl].
      + rewrite (parse_all_ext (objparse c t) (wparse o t)).
        * destruct (parse_all (wparse o t) _ _ _) as [vs|] eqn:Ep.
          -- now apply reads_as_ok.
          -- apply reads_as_fail; [discriminate|auto].
        * now apply objparse_wparse with (G := G).
        * now apply window_len.
      + apply reads_as_fail; [discriminate|lia].
  Qed.

  Lemma reads_as_seq f n pos (x : res * list val * nat) :
    reads_as f n pos x ->
    reads_as (fun l => match f l with Some vs => Some (VSeq vs) | None => None end) n pos (seq_res x).
  Proof.
    intros H v p. destruct x as [[r l] q]. cbn [seq_res]. split.
    - intros [= -> <- ->]. destruct (proj1 (H l p) eq_refl) as (H1 & H2 & H3). now rewrite H2.
    - intros (H1 & H2 & ->). destruct (f (window data pos n)) as [vs|] eqn:E; [|discriminate].
      injection H2 as <-.
      assert (E' : (r, l, q) = (ROk, vs, (pos + n)%nat)) by (apply H; auto). now injection E' as -> -> ->.
  Qed.

  (** Whatever path is taken, a fixed layout object is read as its members, in order. *)
  Lemma des_ty_flat t : flat t -> wf G t = true ->
    forall prior pos, (pos <= length data)%nat -> wt G prior t = true ->
      reads_as (wparse o t) (bsize t) pos (des_ty G c data rec t prior pos).
  Proof.
    induction t using ty_ind'; intros Hf Hw prior pos Hp Hpr; try (destruct Hf as (? & _); discriminate).
    - cbn [des_ty bsize wparse]. rewrite des_scalar_eq by assumption.
      destruct (Nat.leb_spec (pos + w) (length data)); cbn [nres].
      + apply reads_as_ok; auto. now rewrite scalar_val_wval.
      + apply reads_as_fail; [discriminate|lia].
    - cbn [des_ty bsize]. rewrite des_scalar_eq by assumption.
      destruct (Nat.leb_spec (pos + 1) (length data)).
      + rewrite scalar_val_wval. destruct (wval o (window data pos 1) <? 2) eqn:E.
        * apply reads_as_ok; auto. cbn [wparse]. now rewrite E.
        * apply reads_as_fail; [discriminate|]. intros _. cbn [wparse]. now rewrite E.
      + apply reads_as_fail; [discriminate|lia].
    - destruct Hf as (_ & _ & ?). discriminate.
    - (* struct *)
      pose proof Hf as (Hb & _ & He).
      cbn [des_ty]. rewrite He, andb_false_r.
      destruct (as_bytes c (TStruct si ms)) eqn:Ea.
      + pose proof (des_bytes_flat (TStruct si ms) [prior] pos Hf Hw Ea Hp) as D.
        cbn [length Nat.mul] in D. rewrite Nat.add_0_r in D.
        intros v p. destruct (des_bytes c data (TStruct si ms) 1 [prior] pos) as [[r l] q]. split.
        * intro E. assert (K : r = ROk) by (destruct l as [|x [|]]; congruence). subst r.
          destruct (proj1 (D l q) eq_refl) as (D1 & D2 & ->).
          cbn [parse_all] in D2. rewrite firstn_all2 in D2 by (rewrite window_len; lia).
          destruct (wparse _ _ _) as [x|]; [|discriminate]. injection D2 as <-.
          injection E as <- <-. auto.
        * intros (H1 & H2 & ->).
          assert (E : (r, l, q) = (ROk, [v], (pos + bsize (TStruct si ms))%nat)).
          { apply D. repeat split; auto. cbn [parse_all].
            rewrite firstn_all2 by (rewrite window_len; lia). now rewrite H2. }
          now injection E as -> -> ->.
      + destruct prior as [|l| | | | | |]; try discriminate. cbn [as_seq wt] in *.
        pose proof (flat_sum _ _ Hf) as Hsum. cbn [bsize]. rewrite <- Hsum.
        apply (reads_as_seq (parse_many (wparse o) ms)).
        apply des_many_flat; auto.
        rewrite Forall_forall in *. intros m Hin prior pos' Hp' Hw'.
        apply H; auto.
        * eapply flat_member; eauto.
        * cbn [wf] in Hw. rewrite !andb_true_iff in Hw. destruct Hw as [[_ Hw] _].
          rewrite forallb_forall in Hw. auto.
    - (* array *)
      destruct prior as [|l| | | | | |]; try discriminate. cbn [des_ty as_seq wt] in *.
      apply andb_true_iff in Hpr as [Hn Hpr]. apply Nat.eqb_eq in Hn. subst n.
      cbn [wf] in Hw. apply andb_true_iff in Hw as [_ Hw]. pose proof (flat_array _ _ Hf) as Hf'.
      cbn [bsize wparse]. unfold des_elems.
      apply (reads_as_seq (parse_all (wparse o t) (bsize t) (length l))).
      destruct (as_bytes c t) eqn:Ea.
      + now apply des_bytes_flat.
      + apply des_all_flat; auto.
  Qed.

  Lemma des_elems_flat (b : bool) t l pos :
    flat t -> wf G t = true -> (b = true -> as_bytes c t = true) -> (pos <= length data)%nat ->
    forallb (fun x => wt G x t) l = true ->
    reads_as (fun e => match parse_all (wparse o t) (bsize t) (length l) e with
                       | Some vs => Some (VSeq vs) | None => None end) (length l * bsize t) pos
      (des_elems c data b (des_ty G c data rec t) t l pos).
  Proof.
    intros Hf Hw Hb Hp Hl. unfold des_elems.
    apply (reads_as_seq (parse_all (wparse o t) (bsize t) (length l))).
    destruct b; [apply des_bytes_flat; auto|]. apply des_all_flat; auto. now apply des_ty_flat.
  Qed.
End Flat.

Lemma reads_as_okimp {A} data (f : list byte -> option A) n pos x x' :
  reads_as data f n pos x -> reads_as data f n pos x' -> okimp x x'.
Proof. intros H1 H2 v p E. apply H2. now apply H1. Qed.

(** Two archives that agree on the format and make the same allocation decisions. *)
Record same_side (c c' : cfg) : Prop := {
  ss_fmt : fmt_of c' = fmt_of c;
  ss_lim : forall t n, over_limit c' t n = over_limit c t n;
  ss_all : forall t n, can_alloc c' (n * csizeof c' t) = can_alloc c (n * csizeof c t)
}.

Section Host.
  Variables (G : tenv) (c c' : cfg) (data : list byte).
  Hypothesis (HG : wf_env G) (Hds : wfsz (Some (dsize c)) = true) (Hsm : small data).
  Hypothesis (HS : same_side c c').

  Lemma dsize_same : dsize c' = dsize c.
  Proof. pose proof (ss_fmt _ _ HS) as H. unfold fmt_of in H. now injection H. Qed.
  Lemma sz_of_same s : sz_of c' s = sz_of c s.
  Proof. destruct s; cbn [sz_of]; [reflexivity|]. apply dsize_same. Qed.
  Lemma scalar_val_same l : scalar_val c' l = scalar_val c l.
  Proof. rewrite !scalar_val_wval. now rewrite (ss_fmt _ _ HS). Qed.
  Lemma des_scalar_same w x pos : des_scalar c' data w x pos = des_scalar c data w x pos.
  Proof.
    unfold des_scalar. destruct (_ <? _); [reflexivity|]. destruct (load _ _ _); [|reflexivity].
    now rewrite scalar_val_same.
  Qed.
  Lemma des_size_same s pos : des_size c' data s pos = des_size c data s pos.
  Proof. destruct s; cbn [des_size]; auto using des_scalar_same. Qed.
  Lemma des_id_same k pos : des_id c' data k pos = des_id c data k pos.
  Proof. destruct k; cbn [des_id]; auto using des_scalar_same. Qed.
  Lemma vec_resize_same t n l : vec_resize G c' t n l = vec_resize G c t n l.
  Proof. unfold vec_resize. now rewrite (ss_lim _ _ HS), (ss_all _ _ HS). Qed.

  Notation safe := (safe_f G data true true).
  Definition hostok (t : ty) (f f' : val -> nat -> dres) : Prop :=
    forall prior pos, (pos <= length data)%nat -> wt G prior t = true -> okimp (f prior pos) (f' prior pos).

  Lemma okimp_refl {A} (x : res * A * nat) : okimp x x.
  Proof. intros v p H. exact H. Qed.

  Lemma okimp_seq x x' : okimp x x' -> okimp (seq_res x) (seq_res x').
  Proof.
    intros H v p E. destruct x as [[r l] q]. cbn [seq_res] in E. injection E as -> <- ->.
    now rewrite (H l p eq_refl).
  Qed.

  Lemma des_many_host f f' ms :
    Forall (fun m => safe m (f m)) ms -> Forall (fun m => hostok m (f m) (f' m)) ms ->
    forall l pos, (pos <= length data)%nat -> forall2b (fun x m => wt G x m) l ms = true ->
      okimp (des_many f ms l pos) (des_many f' ms l pos).
  Proof.
    induction ms as [|m ms IH]; intros HSf HI l pos Hp Hw; cbn [des_many]; [apply okimp_refl|].
    inversion HSf as [|? ? HSm HSs]; inversion HI as [|? ? HIm HIs]; subst.
    destruct l as [|x l]; [discriminate|]. cbn [forall2b tl] in *. apply andb_true_iff in Hw as [Hx Hw].
    pose proof (HSm x pos Hp Hx) as S. pose proof (HIm x pos Hp Hx) as I.
    destruct (f m x pos) as [[r v] p]. cbn [safe_out] in S.
    intros vs q E. destruct r; try discriminate. rewrite (I v p eq_refl).
    specialize (IH HSs HIs l p ltac:(lia) Hw).
    destruct (des_many f ms l p) as [[r1 l1] p1]. injection E as -> <- ->.
    now rewrite (IH l1 q eq_refl).
  Qed.

  Lemma des_all_host f f' t :
    safe t f -> hostok t f f' ->
    forall l pos, (pos <= length data)%nat -> forallb (fun x => wt G x t) l = true ->
      okimp (des_all f l pos) (des_all f' l pos).
  Proof.
    intros HSf HI. induction l as [|x l IH]; intros pos Hp Hw; cbn [des_all]; [apply okimp_refl|].
    cbn [forallb] in *. apply andb_true_iff in Hw as [Hx Hw].
    pose proof (HSf x pos Hp Hx) as S. pose proof (HI x pos Hp Hx) as I.
    destruct (f x pos) as [[r v] p]. cbn [safe_out] in S.
    intros vs q E. destruct r; try discriminate. rewrite (I v p eq_refl).
    specialize (IH p ltac:(lia) Hw).
    destruct (des_all f l p) as [[r1 l1] p1]. injection E as -> <- ->.
    now rewrite (IH l1 q eq_refl).
  Qed.

  Lemma des_assoc_host f f' t ins d :
    safe t f -> hostok t f f' -> wt G d t = true ->
    forall n acc pos, (pos <= length data)%nat ->
      okimp (des_assoc f ins d n acc pos) (des_assoc f' ins d n acc pos).
  Proof.
    intros HSf HI Hd. induction n as [|n IH]; intros acc pos Hp; cbn [des_assoc]; [apply okimp_refl|].
    pose proof (HSf d pos Hp Hd) as S. pose proof (HI d pos Hp Hd) as I.
    destruct (f d pos) as [[r v] p]. cbn [safe_out] in S.
    intros vs q E. destruct r; try discriminate. rewrite (I v p eq_refl).
    apply IH; [lia|exact E].
  Qed.

  Lemma des_inplace_host dc f f' wrap cur d prior pos t :
    hostok t f f' -> wt G d t = true -> (forall x, cur = Some x -> wt G x t = true) ->
    (pos <= length data)%nat ->
    okimp (des_inplace dc f wrap cur d prior pos) (des_inplace dc f' wrap cur d prior pos).
  Proof.
    intros HI Hd Hc Hp. unfold des_inplace. destruct dc.
    - set (x := match cur with Some x => x | None => d end).
      assert (Hx : wt G x t = true) by (unfold x; destruct cur; auto).
      pose proof (HI x pos Hp Hx) as I. destruct (f x pos) as [[r v] p].
      intros v' q E. injection E as -> <- ->. now rewrite (I v q eq_refl).
    - pose proof (HI d pos Hp Hd) as I. destruct (f d pos) as [[r v] p].
      intros v' q E. destruct r; try discriminate. injection E as <- ->. now rewrite (I v q eq_refl).
  Qed.

  Lemma des_ptr_host f f' d prior pos t :
    hostok t f f' -> wt G d t = true -> (pos <= length data)%nat ->
    okimp (des_ptr f d prior pos) (des_ptr f' d prior pos).
  Proof.
    intros HI Hd Hp. unfold des_ptr. pose proof (HI d pos Hp Hd) as I. destruct (f d pos) as [[r v] p].
    intros v' q E. destruct r; try discriminate. injection E as <- ->. now rewrite (I v q eq_refl).
  Qed.

  Variable rec rec' : nat -> val -> nat -> dres.
  Hypothesis Hrec : forall k, safe (TRec k) (rec k).
  Hypothesis Hhost : forall k, hostok (TRec k) (rec k) (rec' k).

  Notation D := (des_ty G c data rec).
  Notation D' := (des_ty G c' data rec').

  Lemma des_elems_host (b b' : bool) t l pos :
    wf G t = true -> plain t = true -> is_empty t = false -> tallP (cmp_ok G) t ->
    (b = true -> as_bytes c t = true) -> (b' = true -> as_bytes c' t = true) ->
    hostok t (D t) (D' t) -> (pos <= length data)%nat -> forallb (fun x => wt G x t) l = true ->
    okimp (des_elems c data b (D t) t l pos) (des_elems c' data b' (D' t) t l pos).
  Proof.
    intros Hw Hp He Hcp Hb Hb' HI Hpos Hl.
    destruct (bs t) eqn:Ebs.
    - assert (Hf : flat t) by (repeat split; auto).
      pose proof (des_elems_flat G c data rec Hsm b t l pos Hf Hw Hb Hpos Hl) as R1.
      pose proof (des_elems_flat G c' data rec' Hsm b' t l pos Hf Hw Hb' Hpos Hl) as R2.
      rewrite (ss_fmt _ _ HS) in R2. eapply reads_as_okimp; eauto.
    - assert (b = false) as -> by (destruct b; auto; specialize (Hb eq_refl); apply as_bytes_bs in Hb; congruence).
      assert (b' = false) as -> by (destruct b'; auto; specialize (Hb' eq_refl); apply as_bytes_bs in Hb'; congruence).
      unfold des_elems. apply okimp_seq. apply des_all_host with (t := t); auto.
      now eapply bytes_f_safe.
  Qed.

  Lemma des_ty_host t :
    wf G t = true -> plain t = true -> tallP (cmp_ok G) t -> hostok t (D t) (D' t).
  Proof.
    induction t using ty_ind'; intros Hw Hpl Hcp prior pos Hp Hpr.
    - cbn [des_ty]. rewrite des_scalar_same. apply okimp_refl.
    - cbn [des_ty]. rewrite des_scalar_same. apply okimp_refl.
    - cbn [des_ty]. apply okimp_refl.
    - cbn [des_ty]. apply okimp_refl.
    - (* struct *)
      destruct (bs (TStruct si ms)) eqn:Ebs.
      { assert (Hf : flat (TStruct si ms)) by (repeat split; auto; now apply bs_not_empty_struct).
        pose proof (des_ty_flat G c data rec Hsm _ Hf Hw prior pos Hp Hpr) as R1.
        pose proof (des_ty_flat G c' data rec' Hsm _ Hf Hw prior pos Hp Hpr) as R2.
        rewrite (ss_fmt _ _ HS) in R2. eapply reads_as_okimp; eauto. }
      assert (E1 : as_bytes c (TStruct si ms) = false).
      { destruct (as_bytes c (TStruct si ms)) eqn:E; [|reflexivity]. apply as_bytes_bs in E. congruence. }
      assert (E2 : as_bytes c' (TStruct si ms) = false).
      { destruct (as_bytes c' (TStruct si ms)) eqn:E; [|reflexivity]. apply as_bytes_bs in E. congruence. }
      cbn [des_ty]. rewrite E1, E2. destruct (_ && _); [apply okimp_refl|].
      destruct prior as [|l| | | | | |]; try discriminate. cbn [as_seq wt] in *.
      cbn [wf] in Hw. rewrite !andb_true_iff in Hw. destruct Hw as [[_ Hw] _].
      unfold plain in Hpl. cbn [tall] in Hpl. apply andb_true_iff in Hpl as [_ Hpl].
      cbn [tallP] in Hcp. destruct Hcp as [_ Hcp]. apply tallP_list in Hcp.
      rewrite forallb_forall in Hw, Hpl. rewrite Forall_forall in H, Hcp.
      apply okimp_seq, des_many_host; auto; rewrite Forall_forall; intros m Hin.
      + eapply bytes_f_safe; auto.
      + apply H; auto; now apply Hpl.
    - cbn [des_ty]. now apply Hhost.
    - (* array *)
      destruct prior as [|l| | | | | |]; try discriminate. cbn [des_ty as_seq wt] in *.
      apply andb_true_iff in Hpr as [_ Hpr].
      cbn [wf] in Hw. apply andb_true_iff in Hw as [_ Hw].
      unfold plain in Hpl. cbn [tall elem_ok] in Hpl. apply andb_true_iff in Hpl as [He Hpl].
      apply negb_true_iff in He. cbn [tallP] in Hcp. destruct Hcp as [_ Hcp].
      apply des_elems_host; auto.
    - (* tuple *)
      destruct prior as [|l| | | | | |]; try discriminate. cbn [des_ty as_seq wt wf] in *.
      unfold plain in Hpl. cbn [tall] in Hpl. apply andb_true_iff in Hpl as [_ Hpl].
      cbn [tallP] in Hcp. destruct Hcp as [_ Hcp]. apply tallP_list in Hcp.
      rewrite forallb_forall in Hw, Hpl. rewrite Forall_forall in H, Hcp.
      apply okimp_seq, des_many_host; auto; rewrite Forall_forall; intros m Hin.
      + eapply bytes_f_safe; auto.
      + apply H; auto; now apply Hpl.
    - (* vec *)
      destruct prior as [|l| | | | | |]; try discriminate. cbn [des_ty as_seq wt] in *.
      cbn [wf] in Hw. apply andb_true_iff in Hw as [Hs Hw].
      unfold plain in Hpl. cbn [tall elem_ok] in Hpl. apply andb_true_iff in Hpl as [He Hpl].
      apply negb_true_iff in He. cbn [tallP] in Hcp. destruct Hcp as [_ Hcp].
      assert (K : forall l pos, (pos <= length data)%nat -> forallb (fun x => wt G x t) l = true ->
        okimp (des_elems c data (as_bytes c t && cg) (D t) t l pos)
              (des_elems c' data (as_bytes c' t && cg) (D' t) t l pos)).
      { intros. apply des_elems_host; auto; intro E; apply andb_true_iff in E; tauto. }
      rewrite sz_of_same. apply (wfsz_sz_of c _ Hds) in Hs.
      destruct (sz_of c s) as [|w|w]; [apply K; auto|..]; rewrite des_size_same;
      [ pose proof (des_size_safe c (SzFix w) Hs data pos Hsm Hp) as S
      | pose proof (des_size_safe c (SzVar w) Hs data pos Hsm Hp) as S ]; cbn beta in S;
      (destruct (des_size c data _ pos) as [[r n] p1]; destruct r; try (intros ? ? ?; discriminate);
       rewrite vec_resize_same; destruct (vec_resize G c t n l) as [r1 l1] eqn:E1;
       pose proof (vec_resize_wt G c true true HG t n l r1 l1 Hw Hpr E1) as (V1 & _);
       destruct r1; try (intros ? ? ?; discriminate); apply K; [lia|exact V1]).
    - (* assoc *)
      cbn [wf] in Hw. apply andb_true_iff in Hw as [Hs Hw].
      unfold plain in Hpl. cbn [tall elem_ok andb] in Hpl. cbn [tallP] in Hcp. destruct Hcp as [_ Hcp].
      assert (St : safe t (D t)) by now eapply bytes_f_safe.
      assert (Hd : wt G (dflt G t) t = true) by now apply wt_dflt.
      cbn [des_ty]. rewrite sz_of_same. apply (wfsz_sz_of c _ Hds) in Hs.
      destruct (sz_of c s) as [|w|w]; rewrite ?des_size_same;
      [ apply okimp_seq; apply des_assoc_host with (t := t); auto
      | pose proof (des_size_safe c (SzFix w) Hs data pos Hsm Hp) as S
      | pose proof (des_size_safe c (SzVar w) Hs data pos Hsm Hp) as S ]; cbn beta in S;
      (destruct (des_size c data _ pos) as [[r n] p1]; destruct r; try (intros ? ? ?; discriminate);
       apply okimp_seq; apply des_assoc_host with (t := t); auto; lia).
    - (* opt *)
      cbn [des_ty wf] in *. unfold plain in Hpl. cbn [tall elem_ok andb tallP] in *.
      destruct Hcp as [_ Hcp]. unfold des_flag. rewrite des_scalar_same.
      pose proof (des_scalar_safe c 1 0 data pos Hsm Hp) as S. cbn beta in S.
      destruct (des_scalar c data 1 0 pos) as [[r n] p1]. destruct r; try (intros ? ? ?; discriminate).
      destruct n; [apply okimp_refl|].
      apply des_inplace_host with (t := t); auto; [now apply wt_dflt| |lia].
      intros x Hx. destruct prior; try discriminate. injection Hx as <-. exact Hpr.
    - (* optptr *)
      cbn [des_ty wf] in *. unfold plain in Hpl. cbn [tall elem_ok andb tallP] in *.
      destruct Hcp as [_ Hcp]. unfold des_flag. rewrite des_scalar_same.
      pose proof (des_scalar_safe c 1 0 data pos Hsm Hp) as S. cbn beta in S.
      destruct (des_scalar c data 1 0 pos) as [[r n] p1]. destruct r; try (intros ? ? ?; discriminate).
      destruct n; [apply okimp_refl|].
      apply des_ptr_host with (t := t); auto; [now apply wt_dflt|lia].
    - cbn [des_ty wf] in *. unfold plain in Hpl. cbn [tall elem_ok andb tallP] in *. destruct Hcp as [_ Hcp].
      apply des_ptr_host with (t := t); auto. now apply wt_dflt.
    - (* variant *)
      rewrite !des_variant_eq. rewrite des_id_same.
      unfold plain in Hpl. cbn [tall elem_ok andb tallP] in *.
      destruct Hcp as [_ Hcp]. apply tallP_list in Hcp.
      cbn [wf] in Hw. rewrite !andb_true_iff in Hw. destruct Hw as [[[[Hl Hm] Hd] Hi] Hw].
      pose proof (des_id_safe c ik data pos Hsm Hp) as S. cbn beta in S.
      destruct (des_id c data ik pos) as [[r n] p1]. destruct r; try (intros ? ? ?; discriminate).
      destruct (find_id meta n) as [i|]; [|apply okimp_refl].
      destruct (nth_error alts i) as [t'|] eqn:Ea; [|apply okimp_refl].
      pose proof (nth_error_In _ _ Ea) as Hin.
      rewrite forallb_forall in Hw, Hpl. rewrite Forall_forall in H, Hcp.
      assert (HH : hostok t' (D t') (D' t')) by (apply H; auto; now apply Hpl).
      apply des_inplace_host with (t := t'); auto; [apply wt_dflt; auto| |lia].
      intros x Hx. destruct prior; try discriminate. cbn [active] in Hx.
      destruct (Nat.eqb_spec i i0) as [->|]; [|discriminate]. injection Hx as <-.
      cbn [wt] in Hpr. now rewrite Ea in Hpr.
    - cbn [des_ty]. apply okimp_refl.
    - (* view *)
      destruct k as [s|n|]; cbn [des_ty]; try apply okimp_refl.
      rewrite sz_of_same, des_size_same. apply okimp_refl.
    - (* span *)
      destruct prior as [|l| | | | | |]; try discriminate. cbn [des_ty as_seq wt] in *.
      cbn [wf] in Hw. apply andb_true_iff in Hw as [Hs Hw].
      unfold plain in Hpl. cbn [tall elem_ok] in Hpl. apply andb_true_iff in Hpl as [He Hpl].
      apply negb_true_iff in He. cbn [tallP] in Hcp. destruct Hcp as [_ Hcp].
      rewrite sz_of_same. apply (wfsz_sz_of c _ Hds) in Hs.
      destruct (sz_of c s) as [|w|w]; [apply des_elems_host; auto|..]; rewrite des_size_same;
      [ pose proof (des_size_safe c (SzFix w) Hs data pos Hsm Hp) as S
      | pose proof (des_size_safe c (SzVar w) Hs data pos Hsm Hp) as S ]; cbn beta in S;
      (destruct (des_size c data _ pos) as [[r n] p1]; destruct r; try (intros ? ? ?; discriminate);
       destruct (_ <? _); [intros ? ? ?; discriminate|];
       apply des_elems_host; auto; [lia|];
       rewrite forallb_forall in *; intros x Hin; apply Hpr;
       rewrite <- (firstn_skipn (N.to_nat n) l); apply in_or_app; now left).
  Qed.
End Host.

Section HostRec.
  Variables (G : tenv) (c c' : cfg) (data : list byte).
  Hypothesis (HG : wf_env G) (Hds : wfsz (Some (dsize c)) = true) (Hsm : small data).
  Hypothesis (HS : same_side c c').
  Hypothesis (Hcmp : tallP_env (cmp_ok G) G) (Hpl : tall_env elem_ok G).

  Lemma des_rec_host fuel k : hostok G data (TRec k) (des_rec G c data fuel k) (des_rec G c' data fuel k).
  Proof.
    revert k. induction fuel as [|f IH]; intros k prior pos Hp Hpr; cbn [des_rec].
    - intros ? ? ?. discriminate.
    - destruct prior as [|l| | | | | |]; try discriminate. cbn [as_seq wt] in *.
      destruct (HG k) as [Hw _]. specialize (Hpl k) as Hf. specialize (Hcmp k) as Hcp.
      rewrite forallb_forall in Hw, Hf. rewrite Forall_forall in Hcp.
      assert (SF : forall k0, safe_f G data true true (TRec k0) (des_rec G c data f k0))
        by (intro k0; apply des_rec_safe; auto using flagged_env_true).
      apply okimp_seq. eapply des_many_host; eauto; rewrite Forall_forall; intros m Hin.
      + apply bytes_f_safe; auto.
      + apply des_ty_host; auto; now apply Hf.
  Qed.

  Lemma des_host fuel t :
    wf G t = true -> plain t = true -> tallP (cmp_ok G) t ->
    hostok G data t (des G c data fuel t) (des G c' data fuel t).
  Proof.
    intros. unfold des. apply des_ty_host; auto using des_rec_host.
    intro k. apply des_rec_safe; auto using flagged_env_true.
  Qed.
End HostRec.
