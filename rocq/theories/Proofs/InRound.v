(** Reading back what was written. *)

From Coq Require Import List NArith ZArith Lia Bool Arith.
From Coq Require Import ZifyBool ZifyNat ZifyN.
From Verif Require Import Base.Bytes Model.Types Model.Machine Model.Varint Model.Out Model.In
  Spec.Leb128 Spec.Wire Proofs.VarintP Proofs.OutP Proofs.InBase Proofs.InSafe Proofs.InLocal
  Proofs.InPrior.
Import ListNotations.
Local Open Scope N_scope.

Ltac Zify.zify_post_hook ::= Z.div_mod_to_equations.

(** The element count can be represented in the size type. *)
Definition count_ok (c : cfg) (s : option sizety) (n : nat) : bool :=
  match sz_of c s with
  | SzNone => true
  | SzFix w | SzVar w => N.of_nat n <? pow256 w
  end.

(** What the reader must be able to do to rebuild [v]: counts fit their size types, and the
    memory for sequence containers is available and within the limit. *)
Fixpoint readable (G : tenv) (c : cfg) (v : val) (t : ty) {struct v} : bool :=
  match t, v with
  | TStruct _ ms, VSeq l => forall2b (fun x m => readable G c x m) l ms
  | TRec k, VSeq l => forall2b (fun x m => readable G c x m) l (t_mems G k)
  | TTuple ms, VSeq l => forall2b (fun x m => readable G c x m) l ms
  | TArray _ t', VSeq l => forallb (fun x => readable G c x t') l
  | TVec s _ t', VSeq l =>
      count_ok c s (length l) && negb (over_limit c t' (N.of_nat (length l)))
      && can_alloc c (N.of_nat (length l) * csizeof c t')
      && forallb (fun x => readable G c x t') l
  | TAssoc s _ t', VSeq l => count_ok c s (length l) && forallb (fun x => readable G c x t') l
  | TSpan s t', VSeq l => count_ok c s (length l) && forallb (fun x => readable G c x t') l
  | TOpt _ t', VSome x => readable G c x t'
  | TOptPtr t', VSome x => readable G c x t'
  | TPtr t', VSome x => readable G c x t'
  | TVariant _ _ alts, VAlt i x =>
      match nth_error alts i with Some t' => readable G c x t' | None => false end
  | TView (VwSized s), VBytes l => count_ok c s (length l)
  | _, _ => true
  end.

(** Nesting depth of a value. *)
Fixpoint height (v : val) : nat :=
  match v with
  | VSeq l => S (fold_right Nat.max 0 (map height l))%nat
  | VSome x => S (height x)
  | VAlt _ x => S (height x)
  | _ => 1%nat
  end.

(** Types whose encoding determines its own extent and whose varints are invertible. *)
Definition rt_ok (c : cfg) (t : ty) : bool :=
  own_extent c t && delimited c t &&
  match t with TVarint _ sg zz => negb zz || sg | _ => true end.

Lemma height_in l x : In x l -> (height x < height (VSeq l))%nat.
Proof.
  intro H. cbn [height]. induction l as [|y l IH]; [destruct H|].
  cbn [map fold_right]. destruct H as [->|H]; [lia|]. specialize (IH H). lia.
Qed.

(** ** Byte-serializable objects *)

Lemma parse_all_app f w l (r : val -> list byte) :
  Forall (fun x => length (r x) = w /\ f (r x) = Some x) l ->
  parse_all f w (length l) (flat_map r l) = Some l.
Proof.
  induction 1 as [|x l [Hx1 Hx2] _ IH]; [reflexivity|]. cbn [length parse_all flat_map].
  rewrite firstn_app, skipn_app, Hx1, Nat.sub_diag. cbn [firstn skipn].
  rewrite app_nil_r, firstn_all2 by lia. rewrite skipn_all2 by lia. cbn [app].
  now rewrite Hx2, IH.
Qed.

Lemma objrep_length G c v t : wt G v t = true -> bs t = true -> length (objrep c v t) = bsize t.
Proof.
  revert t; induction v as [n|l IH| |v IH|i v IH| |l|l] using val_ind'; intros t Hw Hb;
    destruct t; cbn [wt] in Hw; try discriminate; cbn [bs] in Hb; try discriminate;
    cbn [objrep bsize]; try apply hostrep_length; try reflexivity.
  - rewrite !andb_true_iff in Hb. destruct Hb as [[[[[_ _] Hall] Hsum] _] _].
    apply Nat.eqb_eq in Hsum. rewrite <- Hsum. clear Hsum.
    revert ms Hw Hall. induction IH as [|x l Hx _ IHl]; intros [|m ms] Hw Hall; try discriminate; [reflexivity|].
    cbn [forall2b forallb reps_many map sum fold_right] in *.
    apply andb_true_iff in Hw as [Hw1 Hw2]. apply andb_true_iff in Hall as [Ha1 Ha2].
    rewrite app_length, (Hx m), (IHl ms) by assumption. reflexivity.
  - apply andb_true_iff in Hw as [Hn Hw]. apply Nat.eqb_eq in Hn. subst n.
    induction IH as [|x l Hx _ IHl]; [reflexivity|].
    cbn [flat_map forallb length] in *. apply andb_true_iff in Hw as [Hw1 Hw2].
    rewrite app_length, (Hx t), IHl by assumption. lia.
Qed.

Lemma objparse_objrep G c v t :
  wt G v t = true -> bs t = true -> objparse c t (objrep c v t) = Some v.
Proof.
  revert t; induction v as [n|l IH| |v IH|i v IH| |l|l] using val_ind'; intros t Hw Hb;
    destruct t; cbn [wt] in Hw; try discriminate; cbn [bs] in Hb; try discriminate;
    cbn [objrep objparse].
  - rewrite hostval_hostrep; [reflexivity|]. now apply N.ltb_lt.
  - apply N.ltb_lt in Hw. rewrite hostval_hostrep by (rewrite pow256_S, pow256_0; lia).
    apply N.ltb_lt in Hw. now rewrite Hw.
  - destruct l; [reflexivity|discriminate].
  - rewrite !andb_true_iff in Hb. destruct Hb as [[[[[_ _] Hall] _] _] _].
    assert (P : parse_many (objparse c) ms (reps_many (objrep c) l ms) = Some l); [|now rewrite P].
    revert ms Hw Hall. induction IH as [|x l Hx _ IHl]; intros [|m ms] Hw Hall; try discriminate; [reflexivity|].
    cbn [forall2b forallb reps_many parse_many] in *.
    apply andb_true_iff in Hw as [Hw1 Hw2]. apply andb_true_iff in Hall as [Ha1 Ha2].
    pose proof (objrep_length G c x m Hw1 Ha1) as HL.
    rewrite firstn_app, skipn_app, HL, Nat.sub_diag. cbn [firstn skipn].
    rewrite app_nil_r, firstn_all2 by lia. rewrite skipn_all2 by lia. cbn [app].
    now rewrite (Hx m), (IHl ms).
  - apply andb_true_iff in Hw as [Hn Hw]. apply Nat.eqb_eq in Hn. subst n.
    rewrite (parse_all_app (objparse c t) (bsize t) l (fun x => objrep c x t)); [reflexivity|].
    rewrite forallb_forall in Hw. rewrite Forall_forall in *. intros x Hin. split.
    + eapply objrep_length; eauto.
    + apply IH; auto.
Qed.

(** ** Bits *)

Lemma testbit_bits_number l i : N.testbit (bits_number l) (N.of_nat i) = nth i l false.
Proof.
  revert i; induction l as [|b l IH]; intro i; cbn [bits_number].
  - rewrite N.bits_0. now destruct i.
  - destruct i as [|i]; cbn [nth].
    + replace ((if b then 1 else 0) + 2 * bits_number l) with (2 * bits_number l + N.b2n b)
        by (destruct b; cbn [N.b2n]; lia).
      apply N.testbit_0_r.
    + rewrite Nat2N.inj_succ.
      replace ((if b then 1 else 0) + 2 * bits_number l) with (2 * bits_number l + N.b2n b)
        by (destruct b; cbn [N.b2n]; lia).
      rewrite N.testbit_succ_r. apply IH.
Qed.

Lemma get_bit_le_bytes nb n i :
  (i < 8 * nb)%nat -> get_bit (le_bytes nb n) i = N.testbit n (N.of_nat i).
Proof.
  intro H. unfold get_bit. rewrite nth_error_le_bytes by lia.
  rewrite b2n_n2b.
  set (q := (i / 8)%nat). set (j := (i mod 8)%nat).
  assert (Hi : i = (8 * q + j)%nat) by (unfold q, j; lia).
  assert (Hj : (j < 8)%nat) by (unfold j; lia).
  replace (N.of_nat i) with (N.of_nat j + 8 * N.of_nat q) by lia.
  assert (Hp : pow256 q = 2 ^ (8 * N.of_nat q)).
  { rewrite N.pow_mul_r. unfold pow256. reflexivity. }
  rewrite Hp, <- N.div_pow2_bits.
  set (m := n / 2 ^ (8 * N.of_nat q)).
  change 256 with (2 ^ 8).
  rewrite <- (N.mod_pow2_bits_low m 8 (N.of_nat j)) by lia.
  set (x := m mod 2 ^ 8).
  rewrite <- (N.add_0_l (N.of_nat j)) at 2. rewrite <- N.shiftr_spec by lia.
  change 1 with (N.ones 1). rewrite N.land_ones. change (2 ^ 1) with 2.
  pose proof (N.bit0_mod (N.shiftr x (N.of_nat j))) as B. rewrite <- B.
  destruct (N.testbit (N.shiftr x (N.of_nat j)) 0); reflexivity.
Qed.

Lemma get_bits_le_bytes nb l :
  (length l <= 8 * nb)%nat -> get_bits (le_bytes nb (bits_number l)) 0 (length l) = l.
Proof.
  intro H.
  assert (P : forall k i, (i + k = length l)%nat ->
     get_bits (le_bytes nb (bits_number l)) i k = skipn i l).
  { induction k as [|k IH]; intros i Hi; cbn [get_bits].
    - now rewrite skipn_all2 by lia.
    - rewrite IH by lia. rewrite get_bit_le_bytes by lia. rewrite testbit_bits_number.
      clear -Hi. revert i Hi. induction l as [|b l IHl]; intros i Hi; [cbn in Hi; lia|].
      destruct i as [|i]; [reflexivity|]. cbn [skipn nth]. apply IHl. cbn in Hi. lia. }
  now rewrite (P (length l) O eq_refl).
Qed.

(** ** Associative containers *)

Lemma assoc_insert_append k acc x :
  forallb (fun y => before k y x) acc = true -> assoc_insert k acc x = acc ++ [x].
Proof.
  rewrite forallb_forall. intro H. unfold assoc_insert.
  assert (E : negb (a_multi k) && existsb (fun y => equivalent k y x) acc = false).
  { destruct (a_multi k) eqn:Em; [reflexivity|]. cbn [negb andb].
    destruct (existsb _ acc) eqn:Ex; [|reflexivity]. exfalso.
    apply existsb_exists in Ex as (y & Hin & Ey). specialize (H y Hin).
    unfold equivalent in Ey. unfold before in H. rewrite Em in H. destruct (a_cmp k).
    - apply andb_true_iff in H as [H1 H2]. rewrite H1 in Ey. discriminate.
    - rewrite Ey in H. discriminate. }
  rewrite E. unfold before in H. destruct (a_cmp k) as [lt|eqv]; [|reflexivity].
  clear E. induction acc as [|y acc IH]; [reflexivity|]. cbn [insert_sorted app].
  assert (Hy : lt (akey k x) (akey k y) = false).
  { specialize (H y (or_introl eq_refl)). destruct (a_multi k).
    - now apply negb_true_iff in H.
    - apply andb_true_iff in H as [_ H]. now apply negb_true_iff in H. }
  rewrite Hy, IH; [reflexivity|]. intros z Hin. apply H. now right.
Qed.

Section Round.
  Variables (G : tenv) (c : cfg) (data : list byte).
  Hypothesis (HG : wf_env G) (Hds : wfsz (Some (dsize c)) = true) (Hsm : small data).
  Hypothesis (Hpl : tall_env elem_ok G) (Hrt : tall_env (rt_ok c) G).
  Notation o := (fmt_of c).
  Notation enc := (enc G o).
  Notation has := (has_at data).

  Lemma des_scalar_has w prior n pos :
    n < pow256 w -> has pos (wscalar o w n) ->
    des_scalar c data w prior pos = (ROk, n, (pos + w)%nat).
  Proof.
    intros Hn H. pose proof (wscalar_length o w n) as HL. destruct H as [H1 H2]. rewrite HL in *.
    rewrite des_scalar_eq by (assumption || lia).
    destruct (Nat.leb_spec (pos + w) (length data)); [|lia].
    rewrite H2, scalar_val_wscalar by exact Hn. reflexivity.
  Qed.

  Lemma des_varint_has w sg zz prior n pos :
    wfw w = true -> n < pow256 w -> (zz = true -> sg = true) ->
    has pos (leb128 (varint_number w sg zz n)) ->
    des_varint w zz prior data pos =
    (ROk, n, (pos + length (leb128 (varint_number w sg zz n)))%nat).
  Proof.
    intros Hw Hn Hz H. pose proof (varint_number_lt w sg zz n Hw Hn) as Hv.
    set (m := varint_number w sg zz n) in *.
    apply has_at_elim in H as (pre & post & Hd & Hp).
    rewrite des_varint_eq by (try assumption; rewrite Hd, app_length; lia).
    assert (E : leb_value (firstn (varint_max_size w) (skipn pos data)) = Some (m, length (leb128 m))).
    { rewrite Hd, skipn_app, <- Hp, skipn_all, Nat.sub_diag. cbn [skipn app].
      apply leb_value_firstn; [apply leb_value_leb128|]. now apply leb128_max. }
    rewrite E, N.mod_small by exact Hv. unfold m. rewrite unwire_wire by assumption. reflexivity.
  Qed.

  Lemma des_size_has s n pos :
    wfsz s = true -> sz_of c s <> SzNone -> count_ok c s n = true ->
    has pos (wire_size o s (N.of_nat n)) ->
    des_size c data (sz_of c s) pos = (ROk, N.of_nat n, (pos + length (wire_size o s (N.of_nat n)))%nat).
  Proof.
    intros Hs Hne Hc. unfold count_ok in Hc.
    apply (wfsz_sz_of c _ Hds) in Hs.
    unfold wire_size. change (match s with Some s0 => s0 | None => wsize o end) with (sz_of c s).
    destruct (sz_of c s) as [|w|w]; [congruence|..]; apply N.ltb_lt in Hc; cbn [des_size];
      rewrite N.mod_small by exact Hc; intro H.
    - rewrite wscalar_length. now apply des_scalar_has.
    - exact (des_varint_has w false false 0 (N.of_nat n) pos Hs Hc ltac:(discriminate) H).
  Qed.

  Lemma des_id_has ik n pos :
    n < pow256 (idwidth ik) -> has pos (wire_id o ik n) ->
    des_id c data ik pos = (ROk, n, (pos + length (wire_id o ik n))%nat).
  Proof.
    intros Hn H. destruct ik as [w|w]; cbn [wire_id idwidth des_id] in *.
    - rewrite wscalar_length. now apply des_scalar_has.
    - destruct H as [H1 H2]. rewrite le_bytes_length in *.
      rewrite remaining_small by (assumption || lia).
      destruct (N.ltb_spec (N.of_nat (length data - pos)) (N.of_nat w)); [lia|].
      rewrite load_some by lia. rewrite H2, le_val_le_bytes_small by exact Hn. reflexivity.
  Qed.

  Lemma des_bytes_has t l prior pos :
    wf G t = true -> bs t = true -> forallb (fun x => wt G x t) l = true -> length prior = length l ->
    has pos (flat_map (fun x => objrep c x t) l) ->
    des_bytes c data t (length l) prior pos
    = (ROk, l, (pos + length (flat_map (fun x => objrep c x t) l))%nat).
  Proof.
    intros Hw Hb Hl Hp H.
    assert (HL : length (flat_map (fun x => objrep c x t) l) = (length l * bsize t)%nat).
    { clear -Hl Hb. induction l as [|x l IH]; [reflexivity|]. cbn [flat_map forallb length] in *.
      apply andb_true_iff in Hl as [H1 H2]. rewrite app_length, IH, (objrep_length G) by assumption.
      lia. }
    destruct H as [H1 H2]. rewrite HL in *. rewrite des_bytes_eq by (assumption || lia).
    pose proof (bs_bsize_pos G t Hw Hb).
    destruct (Nat.eqb_spec (length l * bsize t) 0).
    - destruct l; [|cbn in *; lia]. destruct prior; [|discriminate]. f_equal. cbn. lia.
    - destruct (Nat.leb_spec (pos + length l * bsize t) (length data)); [|lia].
      rewrite H2, (parse_all_app (objparse c t) (bsize t) l (fun x => objrep c x t)); [reflexivity|].
      rewrite forallb_forall in Hl. rewrite Forall_forall. intros x Hin. split.
      + eapply objrep_length; eauto.
      + eapply objparse_objrep; eauto.
  Qed.

  (** [f] reads back [v]. *)
  Definition reads (f : val -> nat -> dres) (v : val) (t : ty) : Prop :=
    forall prior pos, wt G prior t = true -> has pos (fst (enc v t)) ->
      f prior pos = (ROk, v, (pos + length (fst (enc v t)))%nat).

  Lemma pseq_ok a b : snd (pseq a b) = true -> snd a = true /\ snd b = true /\ fst (pseq a b) = fst a ++ fst b.
  Proof. unfold pseq. destruct a as [ea []]; cbn [fst snd]; auto. discriminate. Qed.

  Lemma des_many_reads (f : ty -> val -> nat -> dres) l ms :
    (forall x m, In (x, m) (combine l ms) -> snd (enc x m) = true -> reads (f m) x m) ->
    length l = length ms -> snd (enc_many enc l ms) = true ->
    forall priors pos, forall2b (fun x m => wt G x m) priors ms = true ->
      has pos (fst (enc_many enc l ms)) ->
      des_many f ms priors pos = (ROk, l, (pos + length (fst (enc_many enc l ms)))%nat).
  Proof.
    revert ms; induction l as [|x l IH]; intros [|m ms] HF HL Hs priors pos Hp H; try discriminate;
      cbn [des_many enc_many] in *.
    - cbn. f_equal. lia.
    - apply pseq_ok in Hs as (S1 & S2 & S3). rewrite S3 in *.
      apply has_at_app in H as [H1 H2].
      destruct priors as [|y priors]; [discriminate|]. cbn [forall2b tl] in *.
      apply andb_true_iff in Hp as [Hy Hp].
      rewrite (HF x m (or_introl eq_refl) S1 y pos Hy H1).
      rewrite (IH ms) with (pos := (pos + length (fst (enc x m)))%nat); auto.
      + rewrite app_length. f_equal. lia.
      + intros x' m' Hin. apply HF. now right.
  Qed.

  Lemma des_all_reads (f : val -> nat -> dres) l t :
    (forall x, In x l -> snd (enc x t) = true -> reads f x t) ->
    snd (enc_all enc l t) = true ->
    forall priors pos, length priors = length l -> forallb (fun x => wt G x t) priors = true ->
      has pos (fst (enc_all enc l t)) ->
      des_all f priors pos = (ROk, l, (pos + length (fst (enc_all enc l t)))%nat).
  Proof.
    induction l as [|x l IH]; intros HF Hs [|y priors] pos HL Hp H; try discriminate;
      cbn [des_all enc_all] in *.
    - cbn. f_equal. lia.
    - apply pseq_ok in Hs as (S1 & S2 & S3). rewrite S3 in *.
      apply has_at_app in H as [H1 H2]. cbn [forallb] in Hp. apply andb_true_iff in Hp as [Hy Hp].
      rewrite (HF x (or_introl eq_refl) S1 y pos Hy H1).
      rewrite IH with (pos := (pos + length (fst (enc x t)))%nat); auto.
      + rewrite app_length. f_equal. lia.
      + intros x' Hin. apply HF. now right.
  Qed.

  Lemma des_assoc_reads (f : val -> nat -> dres) k l t d :
    (forall x, In x l -> snd (enc x t) = true -> reads f x t) ->
    snd (enc_all enc l t) = true -> wt G d t = true ->
    forall acc pos, pairwise (before k) (acc ++ l) = true ->
      has pos (fst (enc_all enc l t)) ->
      des_assoc f (assoc_insert k) d (length l) acc pos
      = (ROk, acc ++ l, (pos + length (fst (enc_all enc l t)))%nat).
  Proof.
    intros HF Hs Hd. revert HF Hs. induction l as [|x l IH]; intros HF Hs acc pos Hp H;
      cbn [length des_assoc enc_all] in *.
    - rewrite app_nil_r. f_equal. cbn. lia.
    - apply pseq_ok in Hs as (S1 & S2 & S3). rewrite S3 in *.
      apply has_at_app in H as [H1 H2].
      rewrite (HF x (or_introl eq_refl) S1 d pos Hd H1).
      assert (E : assoc_insert k acc x = acc ++ [x]).
      { apply assoc_insert_append. clear -Hp. induction acc as [|y acc IH]; [reflexivity|].
        cbn [app pairwise forallb] in *. apply andb_true_iff in Hp as [H1 H2].
        rewrite forallb_app in H1. cbn [forallb] in H1. rewrite !andb_true_iff in H1.
        destruct H1 as (_ & H1 & _). rewrite H1. cbn [andb]. auto. }
      rewrite E, IH; auto.
      + rewrite <- app_assoc, app_length. cbn [app]. f_equal. lia.
      + intros x' Hin. apply HF. now right.
      + now rewrite <- app_assoc.
  Qed.

  Lemma enc_all_bulk t l :
    wf G t = true -> plain t = true -> is_empty t = false -> as_bytes c t = true ->
    forallb (fun x => wt G x t) l = true ->
    enc_all enc l t = (flat_map (fun x => objrep c x t) l, true).
  Proof.
    intros Hw Hp He Hb Hl. apply enc_all_bytes. rewrite forallb_forall in Hl.
    rewrite Forall_forall. intros x Hin. apply objrep_enc; auto.
  Qed.

  Lemma des_elems_reads (b : bool) (f : val -> nat -> dres) t l priors pos :
    wf G t = true -> plain t = true -> is_empty t = false -> (b = true -> as_bytes c t = true) ->
    forallb (fun x => wt G x t) l = true ->
    (forall x, In x l -> snd (enc x t) = true -> reads f x t) ->
    snd (enc_all enc l t) = true ->
    length priors = length l -> forallb (fun x => wt G x t) priors = true ->
    has pos (fst (enc_all enc l t)) ->
    des_elems c data b f t priors pos = (ROk, VSeq l, (pos + length (fst (enc_all enc l t)))%nat).
  Proof.
    intros Hw Hp He Hb Hl HF Hs HL Hpr H. unfold des_elems. destruct b.
    - rewrite HL. rewrite enc_all_bulk in * by auto. cbn [fst] in *.
      rewrite des_bytes_has; auto. apply (as_bytes_bs c); auto.
    - now rewrite (des_all_reads f l t HF Hs priors pos HL Hpr H).
  Qed.

  Theorem des_round v : forall t fuel prior pos,
    wf G t = true -> plain t = true -> tall (rt_ok c) t = true ->
    wt G v t = true -> writable G o v t = true -> readable G c v t = true ->
    (height v <= fuel)%nat -> wt G prior t = true ->
    has pos (encode G o v t) ->
    des G c data fuel t prior pos = (ROk, v, (pos + length (encode G o v t))%nat).
  Proof.
    unfold writable, encode, des.
    induction v as [n|l IH| |v IH|i v IH| |l|l] using val_ind';
      intros t fuel prior pos Hw Hp Ht Hv Hs Hr Hh Hpr H;
      destruct t; cbn [wt] in Hv; try discriminate; try (destruct k as [s|nv|]; discriminate).
    - (* scalar *)
      cbn [Wire.enc pdone fst] in *. cbn [des_ty]. apply N.ltb_lt in Hv.
      rewrite (des_scalar_has w _ n) by assumption. cbn [nres]. now rewrite wscalar_length.
    - (* bool *)
      cbn [Wire.enc pdone fst] in *. cbn [des_ty]. apply N.ltb_lt in Hv.
      rewrite (des_scalar_has 1 _ n) by (try assumption; rewrite pow256_S, pow256_0; lia).
      rewrite wscalar_length. apply N.ltb_lt in Hv. now rewrite Hv.
    - (* varint *)
      cbn [Wire.enc pdone fst] in *. cbn [des_ty wf] in *. apply N.ltb_lt in Hv.
      cbn [tall] in Ht. unfold rt_ok in Ht. cbn [own_extent delimited andb] in Ht.
      rewrite (des_varint_has w sg zz _ n); auto. intros ->. destruct sg; auto.
    - (* empty *)
      destruct l; [|discriminate]. destruct prior as [|[]| | | | | |]; try discriminate.
      cbn [des_ty Wire.enc pnil fst length]. f_equal. lia.
    - (* struct *)
      cbn [des_ty]. destruct (negb (s_expl si) && is_empty (TStruct si ms)) eqn:Ee.
      { apply andb_true_iff in Ee as [_ Ee]. destruct ms; [|discriminate].
        destruct l; [|discriminate]. destruct prior as [|[]| | | | | |]; try discriminate.
        cbn [Wire.enc enc_many pnil fst length]. f_equal. lia. }
      destruct (as_bytes c (TStruct si ms)) eqn:Eb.
      + pose proof (as_bytes_bs _ _ Eb) as Hb.
        assert (Hwt : wt G (VSeq l) (TStruct si ms) = true) by exact Hv.
        pose proof (objrep_enc G c (VSeq l) (TStruct si ms) Hwt Hw Hp (bs_not_empty_struct _ _ Hb) Eb) as E.
        rewrite E in *. cbn [fst] in *.
        pose proof (des_bytes_has (TStruct si ms) [VSeq l] [prior] pos Hw Hb
          ltac:(cbn [forallb]; now rewrite Hwt) eq_refl) as D.
        cbn [flat_map length] in D. rewrite app_nil_r in D. now rewrite D.
      + destruct prior as [|pl| | | | | |]; try discriminate. cbn [as_seq wt] in *.
        cbn [wf] in Hw. rewrite !andb_true_iff in Hw. destruct Hw as [[_ Hw] _].
        unfold plain in Hp. cbn [tall] in Hp, Ht. apply andb_true_iff in Hp as [_ Hp].
        apply andb_true_iff in Ht as [_ Ht]. cbn [readable Wire.enc] in *.
        rewrite (des_many_reads _ l ms); auto; [|now apply forall2b_length in Hv].
        intros x m Hin Hsx prior pos' Hpx Hx.
        pose proof (in_combine_l _ _ _ _ Hin) as Hin1.
        rewrite Forall_forall in IH. apply (IH x Hin1 m fuel prior pos');
          try (eapply in_combine_forallb; eassumption); auto.
        * eapply forall2b_in in Hv; eauto.
        * eapply forall2b_in in Hr; eauto.
        * pose proof (height_in _ _ Hin1). lia.
    - (* named class *)
      destruct prior as [|pl| | | | | |]; try discriminate. cbn [as_seq wt des_ty] in *.
      cbn [readable Wire.enc] in *. destruct fuel as [|f]; [cbn in Hh; lia|]. cbn [des_rec as_seq].
      destruct (HG k) as [Hwk _]. specialize (Hpl k) as Hpk. specialize (Hrt k) as Htk.
      rewrite (des_many_reads _ l (t_mems G k)); auto; [|now apply forall2b_length in Hv].
      intros x m Hin Hsx prior pos' Hpx Hx.
      pose proof (in_combine_l _ _ _ _ Hin) as Hin1.
      rewrite Forall_forall in IH. apply (IH x Hin1 m f prior pos');
        try (eapply in_combine_forallb; eassumption); auto.
      + eapply forall2b_in in Hv; eauto.
      + eapply forall2b_in in Hr; eauto.
      + pose proof (height_in _ _ Hin1). lia.
    - (* array *)
      destruct prior as [|pl| | | | | |]; try discriminate. cbn [as_seq wt des_ty] in *.
      apply andb_true_iff in Hv as [N1 Hv]. apply andb_true_iff in Hpr as [N2 Hpr].
      cbn [wf] in Hw. apply andb_true_iff in Hw as [_ Hw].
      unfold plain in Hp. cbn [tall elem_ok] in Hp, Ht. apply andb_true_iff in Hp as [He Hp].
      apply andb_true_iff in Ht as [_ Ht]. cbn [readable Wire.enc] in *.
      apply negb_true_iff in He.
      rewrite (des_elems_reads (as_bytes c t) _ t l pl pos); auto; [|lia].
      rewrite forallb_forall in Hv, Hr. rewrite Forall_forall in IH.
      intros x Hin Hsx prior pos' Hpx Hx. apply (IH x Hin t fuel prior pos'); auto.
      pose proof (height_in _ _ Hin). lia.
    - (* tuple *)
      destruct prior as [|pl| | | | | |]; try discriminate. cbn [as_seq wt des_ty wf] in *.
      unfold plain in Hp. cbn [tall] in Hp, Ht. apply andb_true_iff in Hp as [_ Hp].
      apply andb_true_iff in Ht as [_ Ht]. cbn [readable Wire.enc] in *.
      rewrite (des_many_reads _ l ts); auto; [|now apply forall2b_length in Hv].
      intros x m Hin Hsx prior pos' Hpx Hx.
      pose proof (in_combine_l _ _ _ _ Hin) as Hin1.
      rewrite Forall_forall in IH. apply (IH x Hin1 m fuel prior pos');
        try (eapply in_combine_forallb; eassumption); auto.
      * eapply forall2b_in in Hv; eauto.
      * eapply forall2b_in in Hr; eauto.
      * pose proof (height_in _ _ Hin1). lia.
    - (* vec *)
      destruct prior as [|pl| | | | | |]; try discriminate. cbn [as_seq wt des_ty] in *.
      cbn [wf] in Hw. apply andb_true_iff in Hw as [Hz Hw].
      unfold plain in Hp. cbn [tall elem_ok] in Hp, Ht. apply andb_true_iff in Hp as [He Hp].
      apply andb_true_iff in Ht as [Hx Ht]. cbn [readable Wire.enc] in *.
      apply negb_true_iff in He. unfold rt_ok in Hx. cbn [own_extent] in Hx.
      rewrite !andb_true_iff in Hr. destruct Hr as [[[R1 R2] R3] R4]. apply negb_true_iff in R2.
      apply pseq_ok in Hs as (S1 & S2 & S3). rewrite S3 in *. cbn [pdone fst] in *.
      apply has_at_app in H as [H1 H2].
      assert (Hne : sz_of c sz <> SzNone) by (intro E; rewrite E in Hx; discriminate).
      pose proof (des_size_has sz (length l) pos Hz Hne R1 H1) as D.
      assert (V : vec_resize G c t (N.of_nat (length l)) pl = (ROk, vresize (dflt G t) (length l) pl)).
      { unfold vec_resize. rewrite R2, R3, orb_true_r, Nat2N.id. reflexivity. }
      assert (E : des_elems c data (as_bytes c t && contig) (des_ty G c data (des_rec G c data fuel) t) t
         (vresize (dflt G t) (length l) pl) (pos + length (wire_size o sz (N.of_nat (length l))))
         = (ROk, VSeq l, (pos + length (wire_size o sz (N.of_nat (length l))) + length (fst (enc_all enc l t)))%nat)).
      { apply des_elems_reads; auto.
        - intro B. now apply andb_true_iff in B.
        - rewrite forallb_forall in Hv, R4. rewrite Forall_forall in IH.
          intros x Hin Hsx prior pos' Hpx Hx'. apply (IH x Hin t fuel prior pos'); auto.
          pose proof (height_in _ _ Hin). lia.
        - apply vresize_length.
        - rewrite forallb_forall in *. apply Forall_forall, vresize_forall; [now apply wt_dflt|].
          now rewrite Forall_forall. }
      destruct (sz_of c sz); [congruence|..]; rewrite D, V, E, app_length; f_equal; lia.
    - (* assoc *)
      cbn [des_ty]. apply andb_true_iff in Hv as [Hv Hb].
      cbn [wf] in Hw. apply andb_true_iff in Hw as [Hz Hw].
      unfold plain in Hp. cbn [tall elem_ok andb] in Hp, Ht.
      apply andb_true_iff in Ht as [Hx Ht]. cbn [readable Wire.enc] in *.
      unfold rt_ok in Hx. cbn [own_extent] in Hx.
      apply andb_true_iff in Hr as [R1 R4].
      apply pseq_ok in Hs as (S1 & S2 & S3). rewrite S3 in *. cbn [pdone fst] in *.
      apply has_at_app in H as [H1 H2].
      assert (Hne : sz_of c sz <> SzNone) by (intro E; rewrite E in Hx; discriminate).
      pose proof (des_size_has sz (length l) pos Hz Hne R1 H1) as D.
      pose proof (des_assoc_reads (des_ty G c data (des_rec G c data fuel) t) k l t (dflt G t)) as E.
      assert (F : des_assoc (des_ty G c data (des_rec G c data fuel) t) (assoc_insert k) (dflt G t)
          (length l) [] (pos + length (wire_size o sz (N.of_nat (length l))))
          = (ROk, l, (pos + length (wire_size o sz (N.of_nat (length l))) + length (fst (enc_all enc l t)))%nat)).
      { apply E; auto; [|now apply wt_dflt].
        rewrite forallb_forall in Hv, R4. rewrite Forall_forall in IH.
        intros x Hin Hsx prior' pos' Hpx Hx'. apply (IH x Hin t fuel prior' pos'); auto.
        pose proof (height_in _ _ Hin). lia. }
      destruct (sz_of c sz); [congruence|..]; rewrite D, Nat2N.id, F, app_length; cbn [seq_res]; f_equal; lia.
    - (* no optional *)
      cbn [des_ty Wire.enc pdone fst length] in *. unfold des_flag.
      rewrite (des_scalar_has 1 0 0); [reflexivity|rewrite pow256_S, pow256_0; lia|].
      rewrite wscalar_1. exact H.
    - cbn [des_ty Wire.enc pdone fst length] in *. unfold des_flag.
      rewrite (des_scalar_has 1 0 0); [reflexivity|rewrite pow256_S, pow256_0; lia|].
      rewrite wscalar_1. exact H.
    - (* optional *)
      cbn [des_ty Wire.enc wf readable] in *. unfold plain in Hp. cbn [tall elem_ok andb] in Hp, Ht.
      apply andb_true_iff in Ht as [_ Ht]. cbn [height] in Hh.
      apply pseq_ok in Hs as (S1 & S2 & S3). rewrite S3 in *. cbn [pdone fst] in *.
      apply has_at_app in H as [H1 H2]. unfold des_flag.
      rewrite (des_scalar_has 1 0 1); [|rewrite pow256_S, pow256_0; lia|rewrite wscalar_1; exact H1].
      cbn [length] in H2. unfold des_inplace. destruct dc.
      + erewrite IH; eauto; [|lia|].
        * rewrite app_length. cbn [length]. f_equal. lia.
        * destruct prior; cbn [opt_cur]; try (apply wt_dflt; assumption). exact Hpr.
      + erewrite IH; eauto; [|lia|now apply wt_dflt].
        rewrite app_length. cbn [length]. f_equal. lia.
    - (* optional_ptr *)
      cbn [des_ty Wire.enc wf readable] in *. unfold plain in Hp. cbn [tall elem_ok andb] in Hp, Ht.
      apply andb_true_iff in Ht as [_ Ht]. cbn [height] in Hh.
      apply pseq_ok in Hs as (S1 & S2 & S3). rewrite S3 in *. cbn [pdone fst] in *.
      apply has_at_app in H as [H1 H2]. unfold des_flag.
      rewrite (des_scalar_has 1 0 1); [|rewrite pow256_S, pow256_0; lia|rewrite wscalar_1; exact H1].
      cbn [length] in H2. unfold des_ptr.
      erewrite IH; eauto; [|lia|now apply wt_dflt].
      rewrite app_length. cbn [length]. f_equal. lia.
    - (* owning pointer *)
      cbn [des_ty Wire.enc wf readable] in *. unfold plain in Hp. cbn [tall elem_ok andb] in Hp, Ht.
      apply andb_true_iff in Ht as [_ Ht]. cbn [height] in Hh. unfold des_ptr.
      erewrite IH; eauto; [lia|now apply wt_dflt].
    - (* variant *)
      rewrite des_variant_eq.
      cbn [wf] in Hw. rewrite !andb_true_iff in Hw. destruct Hw as [[[[Hl Hm] Hd] Hi] Hw].
      unfold plain in Hp. cbn [tall elem_ok andb] in Hp, Ht. apply andb_true_iff in Ht as [_ Ht].
      cbn [Wire.enc readable height] in *.
      destruct (nth_error alts i) as [t'|] eqn:Ea; [|discriminate].
      destruct (nth_error meta i) as [[id dc]|] eqn:Em; [|discriminate].
      apply pseq_ok in Hs as (S1 & S2 & S3). rewrite S3 in *. cbn [pdone fst] in *.
      apply has_at_app in H as [H1 H2].
      pose proof (nth_error_In _ _ Ea) as Hin.
      rewrite forallb_forall in Hw, Hp, Ht, Hi.
      assert (Hid : id < pow256 (idwidth ik)).
      { apply N.ltb_lt, Hi. apply nth_error_In in Em. apply in_map_iff. now exists (id, dc). }
      rewrite (des_id_has ik id pos Hid H1). rewrite (find_id_nth meta id dc i Hd Em), Ea, Em.
      specialize (Hw _ Hin). unfold des_inplace. destruct dc.
      + erewrite (IH t'); eauto; [|lia|].
        * rewrite app_length. f_equal. lia.
        * destruct prior; cbn [active]; try (apply wt_dflt; assumption).
          destruct (Nat.eqb_spec i i0) as [->|]; [|apply wt_dflt; assumption].
          cbn [wt] in Hpr. now rewrite Ea in Hpr.
      + erewrite (IH t'); eauto; [|lia|now apply wt_dflt].
        rewrite app_length. f_equal. lia.
    - (* bitset *)
      cbn [des_ty Wire.enc pdone fst] in *. apply Nat.eqb_eq in Hv. subst n.
      unfold des_bitset. destruct H as [H1 H2]. rewrite le_bytes_length in *.
      fold (bitset_bytes (length l)) in *.
      rewrite remaining_small by (assumption || lia).
      destruct (N.ltb_spec (N.of_nat (length data - pos)) (N.of_nat (bitset_bytes (length l)))); [lia|].
      rewrite load_some by lia. rewrite H2, get_bits_le_bytes; [reflexivity|].
      unfold bitset_bytes. lia.
    - (* views *)
      destruct k as [s|n|].
      + cbn [des_ty Wire.enc pdone fst readable wf] in *.
        cbn [tall] in Ht. unfold rt_ok in Ht. cbn [own_extent delimited andb] in Ht.
        assert (Hne : sz_of c s <> SzNone) by (intro E; rewrite E in Ht; discriminate).
        apply has_at_app in H as [H1 H2].
        rewrite (des_size_has s (length l) pos Hw Hne Hr H1).
        set (q := (pos + length (wire_size o s (N.of_nat (length l))))%nat) in *.
        destruct H2 as [H2 H3].
        assert (E : (if remaining data q <? N.of_nat (length l) then (RErr result_out_of_range, prior, q)
                     else match load data q (N.to_nat (N.of_nat (length l))) with
                     | Some e => (ROk, VBytes e, (q + N.to_nat (N.of_nat (length l)))%nat)
                     | None => (RUB, prior, q)
                     end) = (ROk, VBytes l, (q + length l)%nat)).
        { rewrite remaining_small by (assumption || lia).
          destruct (N.ltb_spec (N.of_nat (length data - q)) (N.of_nat (length l))); [lia|].
          rewrite Nat2N.id, load_some by lia. now rewrite H3. }
        rewrite app_length. replace (pos + (length (wire_size o s (N.of_nat (length l))) + length l))%nat
          with (q + length l)%nat by (unfold q; lia).
        destruct (sz_of c s); [congruence|exact E..].
      + cbn [des_ty Wire.enc pdone fst] in *. apply Nat.eqb_eq in Hv. subst n.
        destruct H as [H2 H3].
        rewrite remaining_small by (assumption || lia).
        destruct (N.ltb_spec (N.of_nat (length data - pos)) (N.of_nat (length l))); [lia|].
        rewrite load_some by lia. now rewrite H3.
      + cbn [tall] in Ht. unfold rt_ok in Ht. cbn [own_extent delimited andb] in Ht. discriminate.
  Qed.
End Round.
